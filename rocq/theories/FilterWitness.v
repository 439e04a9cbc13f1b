(** Particle filter: counterexamples and double arithmetic. *)

From Coq Require Import ZArith Reals List Bool Lra Lia Psatz.
From Flocq Require Import Core BinarySingleNaN.
From Verif Require Import Outcome Arith TypesModel SpecPose RTactics B64Tactics B64Lemmas ConstraintProofs NdtProofs OccProofs KdModel MotionModel FilterModel SpecFilter AngleProofs KdProofs MotionProofs FilterProofs FilterProofs2 MatcherProofs MatcherB64.
Import ListNotations.
Local Open Scope R_scope.

Definition still : motion_params R := mkMotion 0 0 0 0 0.

(** * C47 *)
Lemma heading_variance_unique : forall ps ws m v w,
  heading_variance ps ws m v -> heading_variance ps ws m w -> v = w.
Proof.
  intros ps ws m v w (d & Hd & ->) (e & He & ->). apply wsum_ext. intros p Hp.
  destruct (Hd p Hp) as (B1 & S1). destruct (He p Hp) as (B2 & S2).
  assert (d p = e p); [|congruence]. apply heading_unique'; [assumption..|].
  eapply same_heading_trans; [exact S1|apply same_heading_sym; exact S2].
Qed.

(** Two particles looking 1 rad to the left and to the right. *)
Definition two_ways : normal_source R := fun i _ _ => if Nat.eqb i 2 then 1 else if Nat.eqb i 5 then -1 else 0.
Definition no_noise : normal_source R := fun _ m _ => m.
Definition turning_ops : list (filter_op R) := [FInit two_ways 0 0 0 0 0 0; FUpdate no_noise 0 0 0].

Theorem heading_variance_grows : exists f0 f,
  filter_new 2 2 still = Ok f0 /\ ops_ok f0 turning_ops /\ filter_run f0 turning_ops = Ok f /\
  ~ heading_variance (pf_parts f) (pf_wts f) (v2 (pf_mean f)) (a22 (pf_cov f)).
Proof.
  destruct (filter_new_total R RA 2 2 still) as (f0 & H0). exists f0.
  assert (M : (1 <= 2)%Z) by lia.
  destruct (filter_new_ok 2 2 still f0 M H0) as (D0 & S0 & V0).
  destruct (update_stats_parts _ _ _ _ H0) as (P0 & E1 & E2 & _). cbn [pf_parts pf_min pf_max] in P0, E1, E2.
  assert (M0 : (1 <= pf_min f0 \/ 1 <= pf_max f0)%Z) by (rewrite E1; left; lia).
  assert (S1 : exists f1, filter_step f0 (FInit two_ways 0 0 0 0 0 0) = Ok f1).
  { cbn [filter_step]. unfold filter_init. apply update_stats_total. cbn [with_parts pf_parts pf_wts].
    rewrite repeat_length. apply le_n. }
  destruct S1 as (f1 & H1).
  destruct (filter_step_ok _ (FInit two_ways 0 0 0 0 0 0) _ D0 M0 I H1) as (D1 & (St1 & _ & v1' & V1 & P1 & A1) & F1 & F2).
  assert (M1 : (1 <= pf_min f1 \/ 1 <= pf_max f1)%Z) by (rewrite F1, E1; left; lia).
  assert (S2 : exists f2, filter_step f1 (FUpdate no_noise 0 0 0) = Ok f2).
  { cbn [filter_step]. unfold filter_update. apply update_stats_total. cbn [with_parts pf_parts pf_wts].
    rewrite motion_length. destruct D1 as (L & _). rewrite L. apply le_n. }
  destruct S2 as (f2 & H2).
  destruct (filter_step_ok _ (FUpdate no_noise 0 0 0) _ D1 M1 I H2) as (D2 & (St2 & _ & v2' & V2 & P2 & A2) & _).
  exists f2. split; [exact H0|]. split.
  { cbn [ops_ok op_ok turning_ops]. repeat split. }
  split.
  { unfold filter_run, turning_ops. cbn [foldM]. rewrite H1. cbn [bind]. rewrite H2. reflexivity. }
  intro V. pose proof (heading_variance_unique _ _ _ _ _ V V2) as E.
  assert (Z0 : 0 <= a22 (pf_cov f0)).
  { destruct V0 as (d & _ & ->). apply wsum_nonneg; [intros; apply Rle_0_sqr|apply D0]. }
  assert (Z1 : v1' = 0) by lra.
  (* the variance after the init call is not zero *)
  cbn [filter_step] in H1. unfold filter_init in H1. rewrite P0 in H1.
  assert (N1 : normalize_angle (1 : R) = 1) by (apply normalize_angle_id; pose proof PI_RGT_0; pose proof PI2_1; lra).
  assert (N2 : normalize_angle (-1 : R) = -1) by (apply normalize_angle_id; pose proof PI_RGT_0; pose proof PI2_1; lra).
  change (Z.to_nat 2) with 2%nat in H1. cbn [repeat map_i length] in H1. unfold two_ways in H1. cbn [Nat.mul Nat.add Nat.eqb] in H1. rewrite N1, N2 in H1.
  pose proof (update_stats_parts _ _ _ _ H1) as (Q1 & _). cbn [with_parts pf_parts] in Q1.
  assert (T1 : total [1 / 2; 1 / 2] <> 0) by (unfold total; simpl; lra).
  destruct (update_stats_R _ _ H1) as (W1 & _); [reflexivity|exact T1|].
  cbn [with_parts pf_wts] in W1. ra_in W1. 
  assert (W1' : pf_wts f1 = [1 / 2; 1 / 2]).
  { rewrite W1. unfold total. cbn. f_equal; [|f_equal]; field. }
  destruct V1 as (d & Hd & Ev). rewrite Q1, W1' in Ev. cbn [wsum] in Ev.
  set (pa := mkVec3 0 0 1) in *. set (pb := mkVec3 0 0 (-1)) in *.
  assert (Da : d pa = 0) by nra. assert (Db : d pb = 0) by nra.
  destruct (Hd pa) as (_ & ka & Ka); [rewrite Q1; left; reflexivity|].
  destruct (Hd pb) as (_ & kb & Kb); [rewrite Q1; right; left; reflexivity|].
  rewrite Da in Ka. rewrite Db in Kb. unfold pa in Ka. unfold pb in Kb. cbn [v2] in Ka, Kb.
  assert (X : 2 = 2 * PI * IZR (ka - kb)) by (rewrite minus_IZR; lra).
  assert (P : 3 < PI) by (pose proof PI2_3_2; lra).
  destruct (Z.lt_trichotomy (ka - kb) 0) as [L|[L|L]].
  - assert (IZR (ka - kb) <= -1) by (apply IZR_le; lia). nra.
  - rewrite L in X. lra.
  - assert (1 <= IZR (ka - kb)) by (apply IZR_le; lia). nra.
Qed.

(** * C48 *)
Definition lopsided : pfilter R :=
  mkFilter 4 4 still [mkVec3 0 0 0; mkVec3 4 0 0] [1 / 4; 3 / 4] (mkVec3 3 0 0) (mkMat3 0 0 0 0 0 0 0 0 0).
Definition four_draws : list Z := [0; 1; 1; 1]%Z.

Lemma lopsided_distribution : distribution lopsided.
Proof.
  unfold distribution, lopsided. cbn [pf_parts pf_wts]. split; [reflexivity|]. split.
  - repeat constructor; lra.
  - unfold total. cbn. lra.
Qed.

Lemma four_draws_proportional : proportional (pf_wts lopsided) four_draws.
Proof.
  split.
  - unfold four_draws. cbn [lopsided pf_wts length]. repeat constructor; lia.
  - intros i w H. apply vec_get_inv in H. destruct H as (Hi & H). cbn [lopsided pf_wts] in *.
    destruct (Z.to_nat i) as [|[|n]] eqn:E; cbn in H.
    + injection H as <-. replace i with 0%Z by lia. cbn. lra.
    + injection H as <-. replace i with 1%Z by lia. cbn. lra.
    + destruct n; discriminate.
Qed.

Lemma four_draws_ok : exists f', filter_resample four_draws (1 / 100) 0 lopsided = Ok f' /\ length (pf_parts f') = 4%nat.
Proof.
  destruct (resample_total four_draws (1 / 100) 0 lopsided lopsided_distribution) as (f' & H).
  - cbn; lia.
  - cbn; lia.
  - unfold four_draws. cbn [lopsided pf_parts length]. repeat constructor; lia.
  - cbn; lia.
  - lra.
  - lra.
  - cbn [lopsided pf_max]. apply Rlt_le_trans with (IZR 1000); [lra|apply IZR_le; lia].
  - pose proof PI_RGT_0. pose proof (IZR_le 4 (2 ^ 28) ltac:(lia)).
    constructor; [|constructor; [|constructor]]; cbn [v0 v1 v2]; (split; [apply Rabs_le; lra|split; [apply Rabs_le; lra|lra]]).
  - exists f'. split; [exact H|].
    pose proof (resample_spec four_draws (1 / 100) 0 lopsided) as S. rewrite H in S.
    destruct S as (S & _); cbn; try lia.
    + repeat constructor; lia.
    + cbn [lopsided pf_min pf_max] in S. lia.
Qed.

Theorem resampling_biased : exists f',
  distribution lopsided /\ proportional (pf_wts lopsided) four_draws /\
  filter_resample four_draws (1 / 100) 0 lopsided = Ok f' /\ length (pf_parts f') = length four_draws /\
  v0 (pf_mean f') <> wsum v0 (pf_parts lopsided) (pf_wts lopsided).
Proof.
  destruct four_draws_ok as (f' & H & L). exists f'.
  split; [exact lopsided_distribution|]. split; [exact four_draws_proportional|]. split; [exact H|]. split; [exact L|].
  destruct (resample_law four_draws (1 / 100) 0 lopsided f') as (_ & E & _); try assumption.
  - exact lopsided_distribution.
  - cbn; lia.
  - cbn; lia.
  - reflexivity.
  - exact four_draws_proportional.
  - rewrite E. unfold total. cbn. lra.
Qed.

(** * C49 *)
Section B.
Context (lm : libm).
Let A : Arith b64 := BA lm.
Existing Instance A.

Lemma zero_sum : forall n, fold_left nadd (repeat (nzero : b64) n) nzero = nzero.
Proof.
  induction n as [|n IH]; [reflexivity|]. cbn [repeat fold_left].
  replace (nadd nzero nzero) with (nzero : b64) by b64_compute. exact IH.
Qed.

Lemma nan_add : forall x : b64, is_nan (nadd x B754_nan) = true.
Proof. intros [s|s| |s m e H]; reflexivity. Qed.
Lemma nan_add_l : forall x : b64, is_nan (nadd B754_nan x) = true.
Proof. intros [s|s| |s m e H]; reflexivity. Qed.
Lemma nan_mul_l : forall x : b64, nmul (B754_nan : b64) x = B754_nan.
Proof. intros [s|s| |s m e H]; reflexivity. Qed.
Lemma is_nan_eq : forall x : b64, is_nan x = true -> x = B754_nan.
Proof. intros [s|s| |s m e H] E; try discriminate. reflexivity. Qed.

Lemma nan_mean : forall n ps (s : @sums b64), is_nan (v0 (su_mean s)) = true ->
  is_nan (v0 (su_mean (fold_left (fun s q => sums_add s (fst q) (snd q)) (combine ps (repeat (B754_nan : b64) n)) s))) = true.
Proof.
  induction n as [|n IH]; intros ps s H.
  - destruct ps; exact H.
  - destruct ps as [|p ps]; [exact H|]. cbn [repeat combine fold_left fst snd]. apply IH.
    unfold sums_add. cbn [su_mean v0]. apply is_nan_eq in H. rewrite H. apply nan_add_l.
Qed.

Theorem unexplained_measure : forall f : pfilter b64, pf_parts f <> [] -> length (pf_wts f) = length (pf_parts f) ->
  exists f', filter_measure (fun _ => Ok nzero) f = Ok f' /\
    Forall (fun w => is_nan w = true) (pf_wts f') /\ is_nan (v0 (pf_mean f')) = true.
Proof.
  intros f NE L. unfold filter_measure. rewrite L, Nat.ltb_irrefl.
  assert (W : mapM (fun p : vec3 b64 => @Ok b64 nzero) (pf_parts f) = Ok (repeat nzero (length (pf_parts f)))).
  { clear. induction (pf_parts f) as [|p ps IH]; [reflexivity|]. cbn [mapM]. rewrite IH. reflexivity. }
  rewrite W. cbn [bind]. rewrite <- L, skipn_all, app_nil_r, L.
  unfold update_stats. cbn [with_parts pf_wts pf_parts pf_min pf_max pf_motion pf_cov].
  rewrite zero_sum.
  assert (Q : map (fun w => ndiv w nzero) (repeat (nzero : b64) (length (pf_parts f))) = repeat B754_nan (length (pf_parts f))).
  { generalize (length (pf_parts f)). induction n as [|n IH]; [reflexivity|]. cbn [repeat map]. rewrite IH.
    f_equal. }
  rewrite Q. rewrite with_weights_ok by (rewrite repeat_length; apply le_n). cbn [bind].
  eexists. split; [reflexivity|]. cbn [pf_wts pf_mean v0]. split.
  - rewrite Forall_forall. intros w Hw. apply repeat_spec in Hw. subst w. reflexivity.
  - destruct (pf_parts f) as [|p ps]; [contradiction|]. cbn [length repeat combine fold_left fst snd].
    apply nan_mean. unfold sums_add. cbn [su_mean v0]. rewrite nan_mul_l. apply nan_add.
Qed.

(** What holds: scores in [-1, 0], one of them not 0. *)
Lemma neg_sum : forall (ws : list b64) (acc : b64) k,
  is_finite acc = true -> - IZR k <= B2R acc <= 0 -> (0 <= k)%Z -> (k + Z.of_nat (length ws) <= 2 ^ 52)%Z ->
  Forall (fun w => is_finite w = true /\ -1 <= B2R w <= 0) ws ->
  let s := fold_left nadd ws acc in
  is_finite s = true /\ - IZR (k + Z.of_nat (length ws)) <= B2R s <= B2R acc /\ Forall (fun w => B2R s <= B2R w) ws.
Proof.
  induction ws as [|w ws IH]; intros acc k Fa Ba Hk K F s.
  - unfold s. cbn. rewrite Z.add_0_r. repeat split; try assumption; try lra. constructor.
  - inversion F as [|? ? (Fw & Bw) F']; subst. unfold s. cbn [fold_left].
    assert (KK : IZR (k + 1) <= IZR (2 ^ 52)) by (apply IZR_le; cbn [length] in K; lia).
    destruct (b64_add_ok acc w Fa Fw) as (E & Fs).
    { apply Rle_trans with (IZR (2 ^ 52)); [|apply Rle_trans with (Rabs (IZR (2 ^ 52))); [apply RRle_abs|apply IZR_bpow1023; lia]].
      apply Rabs_le. rewrite plus_IZR in KK. lra. }
    assert (B : - IZR (k + 1) <= B2R (nadd acc w) /\ B2R (nadd acc w) <= B2R acc /\ B2R (nadd acc w) <= B2R w).
    { cbn [nadd A BA]. rewrite E. split; [|split].
      - apply rnd_lb; [rewrite <- opp_IZR; apply fmt_int; cbn [length] in K; lia|]. rewrite plus_IZR. lra.
      - apply rnd_ub; [apply fmt_b64|lra].
      - apply rnd_ub; [apply fmt_b64|lra]. }
    destruct B as (B1 & B2 & B3).
    destruct (IH (nadd acc w) (k + 1)%Z) as (R1 & R2 & R3); try assumption; try lia; try lra.
    { cbn [length] in K. lia. }
    split; [exact R1|]. cbn [length]. replace (k + Z.of_nat (S (length ws)))%Z with (k + 1 + Z.of_nat (length ws))%Z by lia.
    split; [lra|]. constructor; [lra|exact R3].
Qed.

Theorem explained_measure_b64 : forall (score : pose b64 -> outcome b64) (f f' : pfilter b64),
  length (pf_wts f) = length (pf_parts f) -> (Z.of_nat (length (pf_parts f)) <= 2 ^ 52)%Z ->
  (forall p s, In p (pf_parts f) -> score (mkPose (v0 p) (v1 p) (v2 p)) = Ok s -> is_finite s = true /\ -1 <= B2R s <= 0) ->
  (exists p s, In p (pf_parts f) /\ score (mkPose (v0 p) (v1 p) (v2 p)) = Ok s /\ B2R s <> 0) ->
  filter_measure score f = Ok f' ->
  Forall (fun w => is_finite w = true /\ 0 <= B2R w <= 1) (pf_wts f').
Proof.
  intros score f f' L N S (p & s0 & Hp & Hs & Hz) H. unfold filter_measure in H. rewrite L, Nat.ltb_irrefl in H.
  apply bind_ok in H. destruct H as (ws & Hw & H). rewrite <- L, skipn_all, app_nil_r in H.
  unfold update_stats in H. cbn [with_parts pf_wts] in H. apply bind_ok in H. destruct H as (pw & _ & H).
  assert (W : pf_wts f' = map (fun w => ndiv w (fold_left nadd ws nzero)) ws) by (injection H as <-; reflexivity).
  rewrite W. clear W H.
  assert (G : Forall2 (fun p w => score (mkPose (v0 p) (v1 p) (v2 p)) = Ok w) (pf_parts f) ws) by (apply mapM_Forall2; exact Hw).
  assert (B : Forall (fun w => is_finite w = true /\ -1 <= B2R w <= 0) ws).
  { clear - G S. revert S. induction G as [|q w ps ws Hq G IH]; intro S; constructor.
    - apply (S q); [left; reflexivity|exact Hq].
    - apply IH. intros; eapply S; [right|]; eassumption. }
  assert (Z1 : Exists (fun w => B2R w <> 0) ws).
  { clear - G Hp Hs Hz. induction G as [|q w ps ws Hq G IH]; [destruct Hp|].
    destruct Hp as [->|Hp]; [left; congruence|right; apply IH; exact Hp]. }
  assert (Z0 : B2R (nzero : b64) = 0 /\ is_finite (nzero : b64) = true) by (apply (b64_ofZ 0); lia).
  destruct Z0 as (Z0 & ZF).
  destruct (neg_sum ws nzero 0 ZF) as (R1 & R2 & R3); try lia; try assumption.
  { rewrite Z0. lra. }
  { rewrite <- (Forall2_len _ _ _ _ _ G). lia. }
  set (s := fold_left nadd ws nzero) in *. clearbody s.
  assert (Sn : B2R s < 0).
  { apply Exists_exists in Z1. destruct Z1 as (w & Hin & Hw0). rewrite Forall_forall in R3, B.
    specialize (R3 w Hin). destruct (B w Hin) as (_ & Bw). lra. }
  rewrite Forall_forall in *. intros w' Hw'. apply in_map_iff in Hw'. destruct Hw' as (w & <- & Hin).
  destruct (B w Hin) as (Fw & Bw). specialize (R3 w Hin).
  assert (Q : 0 <= B2R w / B2R s <= 1).
  { replace (B2R w / B2R s) with ((- B2R w) * / (- B2R s)) by (field; lra).
    assert (0 < / - B2R s) by (apply Rinv_0_lt_compat; lra).
    split; [nra|]. replace 1 with ((- B2R s) * / (- B2R s)) by (field; lra). nra. }
  destruct (b64_div_ok w s Fw) as (E & Fq); [lra| |].
  { apply Rle_trans with 1; [apply Rabs_le; lra|]. change 1 with (bpow radix2 0). apply bpow_le. lia. }
  cbn [ndiv A BA]. split; [exact Fq|]. rewrite E. split.
  - apply rnd_lb; [apply (fmt_int 0); lia|lra].
  - apply rnd_ub; [apply (fmt_int 1); lia|lra].
Qed.
End B.
