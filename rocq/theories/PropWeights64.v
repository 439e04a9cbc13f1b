(** C128: the weights of the particle filter in double arithmetic. *)

From Coq Require Import ZArith Reals List Bool Lia Lra.
From Flocq Require Import Core BinarySingleNaN Plus_error.
From Verif Require Import Outcome Arith TypesModel MotionModel FilterModel NdtProofs MatcherProofs FilterProofs FilterProofs2 OccProofs
  B64Tactics B64Lemmas CellB64 PropGrid64 MapperWitness2 SpecWeights64.
Import ListNotations.
Local Open Scope R_scope.

(** ** Sums of doubles of the same sign *)
Lemma rnd_plus (a b : R) : fmt a -> fmt b -> Rabs (rnd (a + b) - (a + b)) <= u64 * Rabs (a + b).
Proof.
  intros Fa Fb. destruct (Rle_lt_dec (Rabs (a + b)) (bpow radix2 (53 + -1074))) as [L|L].
  - rewrite rnd_fmt.
    + rewrite Rminus_diag_eq by reflexivity. rewrite Rabs_R0. apply Rmult_le_pos; [pose proof u64_pos; lra|apply Rabs_pos].
    + unfold fmt. rewrite fexp64_FLT. apply FLT_format_plus_small; [reflexivity|rewrite <- fexp64_FLT; exact Fa|rewrite <- fexp64_FLT; exact Fb|exact L].
  - pose proof (rnd_error (a + b)) as E. fold u64 in E. unfold Rmax in E.
    destruct (Rle_dec (bpow radix2 (-1075)) (u64 * Rabs (a + b))) as [M|M]; [exact E|].
    exfalso. apply M. unfold u64. apply Rle_trans with (bpow radix2 (-53) * bpow radix2 (53 + -1074)).
    + rewrite <- bpow_plus. apply bpow_le. lia.
    + apply Rmult_le_compat_l; [apply bpow_ge_0|lra].
Qed.

Definition sign (s : R) : Prop := s = 1 \/ s = -1.
Lemma rnd_sign (s x : R) : sign s -> rnd (s * x) = s * rnd x.
Proof.
  intros [-> | ->]; [rewrite !Rmult_1_l; reflexivity|].
  replace (-1 * x) with (- x) by ring. unfold rnd. rewrite round_NE_opp. ring.
Qed.
Lemma sign_sq (s : R) : sign s -> s * s = 1.
Proof. intros [-> | ->]; ring. Qed.
Lemma sign_abs (s x : R) : sign s -> Rabs (s * x) = Rabs x.
Proof. intros [-> | ->]; [rewrite Rmult_1_l; reflexivity|]. replace (-1 * x) with (- x) by ring. apply Rabs_Ropp. Qed.
Lemma fmt_sign (s x : R) : sign s -> fmt x -> fmt (s * x).
Proof. intros [-> | ->] F; [rewrite Rmult_1_l; exact F|]. replace (-1 * x) with (- x) by ring. apply fmt_opp. exact F. Qed.

Definition Big : R := bpow radix2 900.

Lemma total64_sign (s : R) (ws : list b64) : Forall (fun w => is_finite w = true /\ 0 <= s * B2R w <= Big) ws ->
  0 <= s * total64 ws <= INR (length ws) * Big.
Proof.
  induction 1 as [|w ws [_ Hw] _ IH]; cbn [total64 fold_right length]; [change (INR 0) with 0; lra|].
  fold (total64 ws). rewrite S_INR, Rmult_plus_distr_l. lra.
Qed.

Lemma sum64 (s : R) (ws : list b64) : sign s -> forall (a : b64) (t : R) (k : nat),
  is_finite a = true -> 0 <= s * B2R a -> 0 <= s * t <= INR k * Big -> Rabs (B2R a - t) <= 2 * INR k * u64 * (s * t) ->
  Forall (fun w => is_finite w = true /\ 0 <= s * B2R w <= Big) ws -> (Z.of_nat (k + length ws) <= 2 ^ 40)%Z ->
  let S := fold_left (Bplus mode_NE) ws a in
  is_finite S = true /\ Rabs (B2R S - (t + total64 ws)) <= 2 * INR (k + length ws) * u64 * (s * (t + total64 ws)) /\
  s * B2R a <= s * B2R S /\ Forall (fun w => s * B2R w <= s * B2R S) ws.
Proof.
  intros Sg. induction ws as [|w ws IH]; intros a t k Fa Pa Pt Ea Fw N; cbv zeta.
  - cbn [fold_left total64 fold_right length]. rewrite Rplus_0_r, Nat.add_0_r. repeat split; [exact Fa|exact Ea|lra|constructor].
  - inversion Fw as [|? ? [Ff Hw] Fw']; subst. cbn [fold_left].
    pose proof u64_pos as U. pose proof u64_val as UV.
    assert (K : INR k <= 1099511627776).
    { replace 1099511627776 with (IZR (2 ^ 40)) by (cbn; lra). apply INR_bound. cbn [length] in N. lia. }
    pose proof (pos_INR k) as K0.
    assert (KU : 2 * INR k * u64 <= / 1000).
    { rewrite UV. lra. }
    assert (St : s * (t + B2R w) = s * t + s * B2R w) by ring.
    assert (BB : 0 < Big) by (unfold Big; apply bpow_gt_0).
    assert (BA : Rabs (B2R a + B2R w) <= 1.001 * (s * (t + B2R w))).
    { rewrite <- (sign_abs s) by exact Sg. rewrite Rabs_pos_eq by lra.
      assert (E1 : Rabs (s * B2R a - s * t) <= / 1000 * (s * t)).
      { rewrite <- Rmult_minus_distr_l, sign_abs by exact Sg. eapply Rle_trans; [exact Ea|]. apply Rmult_le_compat_r; lra. }
      apply Rabs_le_inv in E1. lra. }
    assert (BT : s * (t + B2R w) <= INR (S k) * Big).
    { rewrite S_INR. lra. }
    destruct (b64_add_ok a w Fa Ff) as [Va Fa'].
    { apply (Rle_trans _ _ _ BA). apply Rle_trans with (2 * (1099511627777 * Big)).
      - assert (INR (S k) * Big <= 1099511627777 * Big) by (apply Rmult_le_compat_r; [lra|rewrite S_INR; lra]). lra.
      - apply Rle_trans with (bpow radix2 50 * Big); [|unfold Big; rewrite <- bpow_plus; apply bpow_le; lia].
        rewrite <- Rmult_assoc. apply Rmult_le_compat_r; [lra|]. cbn. lra. }
    pose proof (rnd_plus (B2R a) (B2R w) (fmt_b64 a) (fmt_b64 w)) as Er.
    set (a' := Bplus mode_NE a w) in *.
    assert (Z0 : fmt 0) by (change 0 with (IZR 0); apply fmt_int; cbn; lia).
    assert (Sa : s * B2R a' = rnd (s * B2R a + s * B2R w)).
    { rewrite Va, <- rnd_sign by exact Sg. f_equal. ring. }
    assert (La : s * B2R a <= s * B2R a') by (rewrite Sa; apply rnd_lb; [apply fmt_sign; [exact Sg|apply fmt_b64]|lra]).
    assert (Lw : s * B2R w <= s * B2R a') by (rewrite Sa; apply rnd_lb; [apply fmt_sign; [exact Sg|apply fmt_b64]|lra]).
    assert (Ea' : Rabs (B2R a' - (t + B2R w)) <= 2 * INR (S k) * u64 * (s * (t + B2R w))).
    { rewrite Va. replace (rnd (B2R a + B2R w) - (t + B2R w)) with ((rnd (B2R a + B2R w) - (B2R a + B2R w)) + (B2R a - t)) by ring.
      eapply Rle_trans; [apply Rabs_triang|].
      assert (u64 * Rabs (B2R a + B2R w) <= u64 * (1.001 * (s * (t + B2R w)))) by (apply Rmult_le_compat_l; lra).
      assert (KU0 : 0 <= 2 * INR k * u64) by (apply Rmult_le_pos; lra).
      assert (2 * INR k * u64 * (s * t) <= 2 * INR k * u64 * (s * (t + B2R w))) by (apply Rmult_le_compat_l; lra).
      rewrite S_INR. assert (0 <= u64 * (s * (t + B2R w))) by (apply Rmult_le_pos; lra).
      replace (2 * (INR k + 1) * u64 * (s * (t + B2R w))) with (2 * INR k * u64 * (s * (t + B2R w)) + 2 * (u64 * (s * (t + B2R w)))) by ring. lra. }
    destruct (IH a' (t + B2R w) (S k) Fa') as (F & E & L1 & L2); [lra|lra|exact Ea'|exact Fw'|cbn [length] in N; lia|].
    cbn [total64 fold_right length]. fold (total64 ws). rewrite Nat.add_succ_r.
    replace (t + (B2R w + total64 ws)) with (t + B2R w + total64 ws) by ring.
    split; [exact F|]. split; [exact E|]. split; [lra|]. constructor; [lra|exact L2].
Qed.

(** ** The new weights *)
Definition usable (s : R) (ws : list b64) : Prop :=
  sign s /\ Forall (fun w => is_finite w = true /\ 0 <= s * B2R w <= Big) ws /\ Exists (fun w => B2R w <> 0) ws.

Definition scaled (ws : list b64) : list b64 := map (fun w => Bdiv mode_NE w (fold_left (Bplus mode_NE) ws (b64_of 0 0))) ws.

Lemma total64_pos (s : R) (ws : list b64) : usable s ws -> 0 < s * total64 ws.
Proof.
  intros (Sg & F & E). induction E as [w ws H|w ws H IH]; inversion F as [|? ? [_ Hw] F']; subst; cbn [total64 fold_right]; fold (total64 ws).
  - pose proof (total64_sign s ws F'). rewrite Rmult_plus_distr_l.
    assert (s * B2R w <> 0) by (destruct Sg as [-> | ->]; lra). lra.
  - specialize (IH F'). rewrite Rmult_plus_distr_l. lra.
Qed.

Lemma scaled_ok (s : R) (ws : list b64) : usable s ws -> (Z.of_nat (length ws) <= 2 ^ 40)%Z ->
  Forall (fun w => is_finite w = true /\ 0 <= B2R w <= 1) (scaled ws) /\
  Rabs (total64 (scaled ws) - 1) <= bpow radix2 (-51) * (INR (length ws) + 1) /\ 0 < total64 (scaled ws).
Proof.
  intros Us N. pose proof Us as (Sg & F & E). pose proof (total64_pos s ws Us) as TP.
  destruct b64_zero as [Z0 FZ].
  assert (B0 : 0 < Big) by (unfold Big; apply bpow_gt_0).
  destruct (sum64 s ws Sg (b64_of 0 0) 0 0%nat FZ) as (FS & ES & _ & LS);
    [rewrite Z0; lra|cbn [INR]; lra|rewrite Z0, Rminus_0_r, Rabs_R0; cbn [INR]; lra|exact F|exact N|].
  cbn [plus] in ES. rewrite Rplus_0_l in ES. unfold scaled.
  set (S := fold_left (Bplus mode_NE) ws (b64_of 0 0)) in *. set (T := total64 ws) in *.
  set (n := INR (length ws)) in *.
  pose proof u64_pos as U. pose proof u64_val as UV. pose proof eta64_pos as ET.
  assert (n0 : 0 <= n) by apply pos_INR.
  assert (n1 : n <= 1099511627776).
  { replace 1099511627776 with (IZR (2 ^ 40)) by (cbn; lra). apply INR_bound. exact N. }
  assert (SS : Rabs (s * B2R S - s * T) <= 2 * n * u64 * (s * T)).
  { rewrite <- Rmult_minus_distr_l, sign_abs by exact Sg. exact ES. }
  assert (KU : 2 * n * u64 <= / 1000) by (rewrite UV; lra).
  assert (NU0 : 0 <= n * u64) by (apply Rmult_le_pos; lra).
  assert (SP : 0.999 * (s * T) <= s * B2R S).
  { apply Rabs_le_inv in SS. assert (2 * n * u64 * (s * T) <= / 1000 * (s * T)) by (apply Rmult_le_compat_r; lra). lra. }
  assert (S0 : B2R S <> 0) by (intro Q; rewrite Q in SP; lra).
  assert (SP0 : 0 < s * B2R S) by lra.
  assert (Each : forall w, In w ws -> is_finite (Bdiv mode_NE w S) = true /\ 0 <= B2R (Bdiv mode_NE w S) <= 1 /\
            Rabs (B2R (Bdiv mode_NE w S) - B2R w / B2R S) <= u64 * (B2R w / B2R S) + eta64 /\ 0 <= B2R w / B2R S).
  { intros w Hw. rewrite Forall_forall in F, LS. destruct (F w Hw) as [Fw Bw]. specialize (LS w Hw). cbv beta in LS.
    assert (Q : B2R w / B2R S = (s * B2R w) / (s * B2R S)).
    { destruct Sg as [-> | ->]; field; exact S0. }
    assert (QB : 0 <= B2R w / B2R S <= 1).
    { rewrite Q. split; [apply Rmult_le_pos; [lra|left; apply Rinv_0_lt_compat; exact SP0]|].
      apply (Rmult_le_reg_r (s * B2R S)); [exact SP0|]. unfold Rdiv. rewrite Rmult_assoc, Rinv_l by lra. lra. }
    destruct (b64_div_ok w S Fw S0) as [V G].
    { rewrite Rabs_pos_eq by lra. apply Rle_trans with 1; [lra|]. change 1 with (bpow radix2 0). apply bpow_le. lia. }
    split; [exact G|]. rewrite V. split.
    - split; [apply rnd_lb; [change 0 with (IZR 0); apply fmt_int; cbn; lia|lra]|apply rnd_ub; [change 1 with (IZR 1); apply fmt_int; cbn; lia|lra]].
    - split; [|lra]. eapply Rle_trans; [apply rnd_err|]. rewrite Rabs_pos_eq by lra. lra. }
  assert (Sum : forall l, incl l ws -> Rabs (total64 (map (fun w => Bdiv mode_NE w S) l) - total64 l / B2R S) <= u64 * (total64 l / B2R S) + INR (length l) * eta64).
  { induction l as [|w l IH]; intros I; cbn [map total64 fold_right length].
    - unfold Rdiv. rewrite !Rmult_0_l, Rminus_0_r, Rabs_R0. cbn [INR]. lra.
    - fold (total64 l). fold (total64 (map (fun w => Bdiv mode_NE w S) l)). rewrite S_INR.
      destruct (Each w) as (_ & _ & Ew & _); [apply I; left; reflexivity|].
      specialize (IH (fun x Hx => I x (or_intror Hx))).
      replace ((B2R w + total64 l) / B2R S) with (B2R w / B2R S + total64 l / B2R S) by (field; exact S0).
      apply Rabs_le_inv in Ew. apply Rabs_le_inv in IH. apply Rabs_le. lra. }
  specialize (Sum ws (incl_refl ws)). fold T n in Sum.
  assert (R1 : T / B2R S = (s * T) / (s * B2R S)) by (destruct Sg as [-> | ->]; field; exact S0).
  assert (R2 : Rabs (T / B2R S - 1) <= 2.01 * (n * u64)).
  { rewrite R1. replace (s * T / (s * B2R S) - 1) with (- (s * B2R S - s * T) / (s * B2R S)) by (field; destruct Sg as [-> | ->]; lra).
    unfold Rdiv. rewrite Rabs_mult, Rabs_Ropp, Rabs_inv, (Rabs_pos_eq (s * B2R S)) by lra.
    apply (Rmult_le_reg_r (s * B2R S)); [exact SP0|]. rewrite Rmult_assoc, Rinv_l, Rmult_1_r by lra.
    eapply Rle_trans; [exact SS|].
    assert (2.01 * (n * u64) * (0.999 * (s * T)) <= 2.01 * (n * u64) * (s * B2R S)) by (apply Rmult_le_compat_l; lra).
    assert (0 <= n * u64 * (s * T)) by (apply Rmult_le_pos; lra). lra. }
  assert (EE : eta64 <= u64 * / 1000).
  { pose proof (eta_scale 1) as H. rewrite Rmult_1_r in H. apply H. change 1 with (bpow radix2 0). apply bpow_le. lia. }
  assert (NE : n * eta64 <= n * (u64 * / 1000)) by (apply Rmult_le_compat_l; lra).
  assert (R3 : T / B2R S <= 1.01) by (apply Rabs_le_inv in R2; lra).
  assert (R4 : u64 * (T / B2R S) <= u64 * 1.01) by (apply Rmult_le_compat_l; lra).
  assert (Tot : Rabs (total64 (map (fun w => Bdiv mode_NE w S) ws) - 1) <= bpow radix2 (-51) * (n + 1)).
  { replace (bpow radix2 (-51)) with (4 * u64).
    - apply Rabs_le. apply Rabs_le_inv in Sum. apply Rabs_le_inv in R2. lra.
    - unfold u64. change (bpow radix2 (-51)) with (/ IZR (2 ^ 51)). change (bpow radix2 (-53)) with (/ IZR (2 ^ 53)). cbn. lra. }
  split; [|split; [exact Tot|]].
  - apply Forall_forall. intros q Hq. apply in_map_iff in Hq. destruct Hq as (w & <- & Hw). destruct (Each w Hw) as (G & B & _). split; assumption.
  - apply Rabs_le_inv in Tot.
    assert (bpow radix2 (-51) * (n + 1) <= / 2).
    { change (bpow radix2 (-51)) with (/ IZR (2 ^ 51)). cbn. lra. }
    lra.
Qed.

(** A sequence of weights in [0, 1] that are not all zero can be normalised again. *)
Lemma probabilities_usable (ws : list b64) : Forall (fun w => is_finite w = true /\ 0 <= B2R w <= 1) ws -> 0 < total64 ws -> usable 1 ws.
Proof.
  intros F P. split; [left; reflexivity|]. split.
  - eapply Forall_impl; [|exact F]. intros w [Fw Bw]. split; [exact Fw|]. rewrite Rmult_1_l. split; [lra|].
    apply Rle_trans with 1; [lra|]. unfold Big. change 1 with (bpow radix2 0). apply bpow_le. lia.
  - clear F. induction ws as [|w ws IH]; cbn [total64 fold_right] in P; [lra|]. fold (total64 ws) in P.
    destruct (Req_dec (B2R w) 0) as [Z|Z]; [right; apply IH; lra|left; exact Z].
Qed.

Lemma repeat_usable (w : b64) (n : nat) : is_finite w = true -> 0 < B2R w <= 1 -> (0 < n)%nat -> usable 1 (repeat w n).
Proof.
  intros F B N. split; [left; reflexivity|]. split.
  - apply Forall_forall. intros x Hx. apply repeat_spec in Hx. subst x. split; [exact F|]. rewrite Rmult_1_l. split; [lra|].
    apply Rle_trans with 1; [lra|]. unfold Big. change 1 with (bpow radix2 0). apply bpow_le. lia.
  - destruct n as [|n]; [lia|]. cbn [repeat]. left. lra.
Qed.

Lemma inverse_count (n : Z) : (1 <= n <= 2 ^ 40)%Z ->
  is_finite (Bdiv mode_NE (b64_of 1 0) (b64_of n 0)) = true /\ 0 < B2R (Bdiv mode_NE (b64_of 1 0) (b64_of n 0)) <= 1.
Proof.
  intros H. destruct (b64_ofZ 1) as [V1 F1]; [cbn; lia|]. destruct (b64_ofZ n) as [Vn Fn]; [lia|].
  assert (N1 : 1 <= IZR n) by (apply IZR_le; lia).
  assert (N2 : IZR n <= bpow radix2 40) by (change (bpow radix2 40) with (IZR (2 ^ 40)); apply IZR_le; lia).
  assert (Q : bpow radix2 (-40) <= B2R (b64_of 1 0) / B2R (b64_of n 0) <= 1).
  { rewrite V1, Vn. unfold Rdiv. rewrite Rmult_1_l. split.
    - change (-40)%Z with (- (40))%Z. rewrite bpow_opp. apply Rinv_le; lra.
    - rewrite <- Rinv_1. apply Rinv_le; lra. }
  pose proof (bpow_gt_0 radix2 (-40)) as P.
  destruct (b64_div_ok (b64_of 1 0) (b64_of n 0) F1) as [V F].
  - rewrite Vn. lra.
  - rewrite Rabs_pos_eq by lra. apply Rle_trans with 1; [lra|]. change 1 with (bpow radix2 0). apply bpow_le. lia.
  - split; [exact F|]. rewrite V. split.
    + apply Rlt_le_trans with (bpow radix2 (-40)); [exact P|]. apply rnd_lb; [apply fmt_bpow; lia|lra].
    + apply rnd_ub; [change 1 with (IZR 1); apply fmt_int; cbn; lia|lra].
Qed.

(** ** Every history *)
Definition good (f : pfilter b64) : Prop :=
  distribution64 f /\ (1 <= pf_min f <= pf_max f)%Z /\ (pf_max f <= 2 ^ 40)%Z /\ (1 <= Z.of_nat (length (pf_parts f)) <= 2 ^ 40)%Z.

Lemma good_total (f : pfilter b64) : good f -> 0 < total64 (pf_wts f).
Proof.
  intros ((_ & _ & E) & _ & _ & N). apply Rabs_le_inv in E.
  assert (INR (length (pf_parts f)) <= 1099511627776).
  { replace 1099511627776 with (IZR (2 ^ 40)) by (cbn; lra). apply INR_bound. apply N. }
  assert (bpow radix2 (-51) * (INR (length (pf_parts f)) + 1) <= / 2).
  { change (bpow radix2 (-51)) with (/ IZR (2 ^ 51)). cbn. lra. }
  lra.
Qed.

Section H.
Context (lm : libm).
Let A : Arith b64 := BA lm.
Local Existing Instance A.

Lemma stats64 (s : R) (f f' : pfilter b64) : update_stats f = Ok f' -> length (pf_wts f) = length (pf_parts f) -> usable s (pf_wts f) ->
  (1 <= pf_min f <= pf_max f)%Z -> (pf_max f <= 2 ^ 40)%Z -> (1 <= Z.of_nat (length (pf_parts f)) <= 2 ^ 40)%Z -> good f'.
Proof.
  intros E L Us M X N. unfold update_stats in E. apply bind_ok in E. destruct E as (pw & _ & E). injection E as <-.
  destruct (scaled_ok s (pf_wts f) Us) as (F & T & _); [rewrite L; lia|].
  unfold good, distribution64. cbn [pf_wts pf_parts pf_min pf_max].
  change (map (fun w => ndiv w (fold_left nadd (pf_wts f) nzero)) (pf_wts f)) with (scaled (pf_wts f)).
  split; [|split; [exact M|split; [exact X|exact N]]]. split; [unfold scaled; rewrite map_length; exact L|].
  split; [exact F|]. rewrite <- L. exact T.
Qed.

Lemma new_good (mn mx : Z) (m : motion_params b64) (f : pfilter b64) : (1 <= mn <= mx)%Z -> (mx <= 2 ^ 40)%Z ->
  filter_new mn mx m = Ok f -> good f.
Proof.
  intros M X H. unfold filter_new in H. destruct (inverse_count mn ltac:(lia)) as [F B].
  apply (stats64 1) in H; [exact H| | |exact M|exact X|]; cbn [pf_parts pf_wts pf_min pf_max].
  - rewrite !repeat_length. reflexivity.
  - apply repeat_usable; [exact F|exact B|lia].
  - rewrite repeat_length. lia.
Qed.

Lemma step_good (f : pfilter b64) (o : filter_op b64) (f' : pfilter b64) : good f -> op_ok64 f o -> filter_step f o = Ok f' -> good f'.
Proof.
  intros G O E. pose proof (good_total f G) as TP. destruct G as ((L & F & T) & M & X & N).
  destruct o as [n x y th sx sy sth|n dx dy dth|s|d e z]; cbn [filter_step op_ok64] in E, O.
  - unfold filter_init in E. destruct (inverse_count (Z.of_nat (length (pf_parts f))) N) as [Fi Bi].
    apply (stats64 1) in E; [exact E| | |exact M|exact X|]; cbn [with_parts pf_parts pf_wts pf_min pf_max].
    + rewrite repeat_length, map_i_len. reflexivity.
    + rewrite map_i_len. apply repeat_usable; [exact Fi|exact Bi|lia].
    + rewrite map_i_len. exact N.
  - unfold filter_update in E.
    apply (stats64 1) in E; [exact E| | |exact M|exact X|]; cbn [with_parts pf_parts pf_wts pf_min pf_max].
    + unfold motion_sample. rewrite map_i_len. exact L.
    + apply probabilities_usable; assumption.
    + unfold motion_sample. rewrite map_i_len. exact N.
  - unfold filter_measure in E. destruct (_ <? _)%nat; [discriminate|].
    apply bind_ok in E. destruct E as (ws & Hw & E).
    assert (Lw : length ws = length (pf_parts f)) by (apply mapM_length in Hw; exact Hw).
    rewrite <- L, skipn_all, app_nil_r in E.
    assert (G : Forall2 (fun p w => s (mkPose (v0 p) (v1 p) (v2 p)) = Ok w) (pf_parts f) ws) by (apply mapM_Forall2; exact Hw).
    destruct O as (O1 & p & sc & Hp & Hs & Hz).
    apply (stats64 (-1)) in E; [exact E| | |exact M|exact X|]; cbn [with_parts pf_parts pf_wts pf_min pf_max].
    + exact Lw.
    + split; [right; reflexivity|]. split.
      * clear - G O1. revert O1. induction G as [|q w ps ws Hq G IH]; intro O1; constructor.
        -- destruct (O1 q w) as [Fw Bw]; [left; reflexivity|exact Hq|]. split; [exact Fw|]. unfold Big. lra.
        -- apply IH. intros; eapply O1; [right|]; eassumption.
      * clear - G Hp Hs Hz. induction G as [|q w ps ws Hq G IH]; [destruct Hp|].
        destruct Hp as [->|Hp]; [left; congruence|right; apply IH; exact Hp].
    + exact N.
  - unfold filter_resample in E. destruct (dist_ok _); [|discriminate].
    apply bind_ok in E. destruct E as (acc & Ha & E).
    pose proof (resample_loop_size _ _ _ _ _ _ _ _ _ _ _ Ha) as Sz. cbn [length] in Sz.
    specialize (Sz (proj2 M) ltac:(lia)).
    destruct (resample_loop_draws _ _ _ _ _ _ _ _ _ _ _ Ha) as (k & new & Hk & -> & G). cbn [app] in *.
    assert (P : Forall (fun q => (is_finite (snd q) = true /\ 0 <= B2R (snd q) <= 1) /\ 0 < B2R (snd q)) new).
    { assert (O' : Forall (fun i => exists w, vec_get (pf_wts f) i = Ok w /\ 0 < B2R w) (firstn k d)).
      { rewrite Forall_forall in *. intros i Hi. apply O. rewrite <- (firstn_skipn k d). apply in_or_app. left. exact Hi. }
      clear - G O' F. induction G as [|i q is qs (H1 & H2) G IH]; constructor.
      - inversion O' as [|? ? (w & Hw & Pw) _]; subst. assert (Eq : snd q = w) by congruence. cbv beta.
        change ((is_finite (snd q : b64) = true /\ 0 <= B2R (snd q : b64) <= 1) /\ 0 < B2R (snd q : b64)). rewrite <- Eq in Pw, Hw. split; [|exact Pw].
        rewrite Forall_forall in F. apply F. unfold vec_get in Hw. destruct (_ <? 0)%Z; [discriminate|].
        destruct (nth_error (pf_wts f) (Z.to_nat i)) eqn:Q; [|discriminate]. injection Hw as <-. eapply nth_error_In. exact Q.
      - apply IH. inversion O'; assumption. }
    apply (stats64 1) in E; [exact E| | |exact M|exact X|]; cbn [with_parts pf_parts pf_wts pf_min pf_max].
    + rewrite !map_length. reflexivity.
    + split; [left; reflexivity|]. split.
      * rewrite Forall_map. eapply Forall_impl; [|exact P]. cbv beta. intros [qp qw] [[Fq Bq] _]. cbn [snd] in *. split; [exact Fq|]. rewrite Rmult_1_l. split; [lra|].
        apply Rle_trans with 1; [lra|]. unfold Big. change 1 with (bpow radix2 0). apply bpow_le. lia.
      * destruct new as [|[qp qw] new]; [cbn in Sz; lia|]. inversion P as [|? ? [_ Pq] _]; subst. left. cbn [snd] in *. lra.
    + rewrite map_length. lia.
Qed.

Lemma run_good (ops : list (filter_op b64)) : forall f f', good f -> ops_ok64 lm f ops -> filter_run f ops = Ok f' -> good f'.
Proof.
  induction ops as [|o ops IH]; intros f f' G O E; cbn in E.
  - injection E as <-. exact G.
  - apply bind_ok in E. destruct E as (g & Hg & E). destruct O as (O1 & O2).
    eapply IH; [exact (step_good f o g G O1 Hg)|apply O2; exact Hg|exact E].
Qed.

Lemma good_dist_ok (f : pfilter b64) : good f -> dist_ok (pf_wts f) = true.
Proof.
  intros G. pose proof (good_total f G) as TP. destruct G as ((L & F & T) & _ & _ & N).
  assert (D : dist_ok (pf_wts f) = forallb (fun w => nle nzero w && nfinite w) (pf_wts f) && nlt nzero (fold_left nadd (pf_wts f) nzero)
              \/ dist_ok (pf_wts f) = true) by (destruct (pf_wts f); [right|left]; reflexivity).
  destruct D as [D|D]; [rewrite D|exact D].
  destruct b64_zero as [Z0 FZ]. apply andb_true_intro. split.
  - apply forallb_forall. intros x Hx. rewrite Forall_forall in F. destruct (F x Hx) as [Fx Bx].
    change (nle nzero x) with (Bleb (b64_of 0 0) x). change (nfinite x) with (is_finite x).
    rewrite Fx, andb_true_r, Bleb_correct by assumption. apply Rle_bool_true. rewrite Z0. lra.
  - change (nlt nzero (fold_left nadd (pf_wts f) nzero)) with (Bltb (b64_of 0 0) (fold_left (Bplus mode_NE) (pf_wts f) (b64_of 0 0))).
    destruct (probabilities_usable _ F TP) as (Sg & F' & E).
    destruct (sum64 1 (pf_wts f) Sg (b64_of 0 0) 0 0%nat FZ) as (FS & _ & _ & LS);
      [rewrite Z0; lra|cbn [INR]; lra|rewrite Z0, Rminus_0_r, Rabs_R0; cbn [INR]; lra|exact F'|rewrite L; lia|].
    rewrite Bltb_correct by assumption. apply Rlt_bool_true. rewrite Z0.
    apply Exists_exists in E. destruct E as (x & Hx & Nx). rewrite Forall_forall in F, LS. specialize (LS x Hx). destruct (F x Hx) as [_ Bx]. lra.
Qed.
End H.

Theorem C128_weights_distribution (lm : libm) (mn mx : Z) (m : motion_params b64) (ops : list (filter_op b64)) (f0 f : pfilter b64) :
  (1 <= mn <= mx)%Z -> (mx <= 2 ^ 40)%Z -> filter_new (A := BA lm) mn mx m = Ok f0 -> ops_ok64 lm f0 ops ->
  filter_run (A := BA lm) f0 ops = Ok f -> distribution64 f /\ dist_ok (A := BA lm) (pf_wts f) = true.
Proof.
  intros M X H O E. pose proof (run_good lm ops f0 f (new_good lm mn mx m f0 M X H) O E) as G.
  split; [apply G|apply good_dist_ok; exact G].
Qed.
Print Assumptions C128_weights_distribution.

(** Non-vacuity: two particles, moved, weighed and moved again. *)
Definition minus1 : b64 := b64_of (-1) 0.
Definition weigh_ops : list (filter_op b64) := [FMeasure (fun _ => Ok minus1); FMeasure (fun _ => Ok minus1)].
Lemma minus1_ok : is_finite minus1 = true /\ B2R minus1 = -1.
Proof.
  unfold minus1. destruct (b64_ofZ (-1)) as [V F]; [cbn; lia|]. split; [exact F|exact V].
Qed.

Lemma C128_nonvacuous (lm : libm) (m : motion_params b64) : exists f0 f,
  filter_new (A := BA lm) 2 2 m = Ok f0 /\ ops_ok64 lm f0 weigh_ops /\ filter_run (A := BA lm) f0 weigh_ops = Ok f /\ distribution64 f.
Proof.
  set (A := BA lm).
  assert (S : forall f, length (pf_parts f) = 2%nat -> length (pf_wts f) = 2%nat ->
    op_ok64 f (FMeasure (fun _ => Ok minus1)) /\
    exists f', filter_step (A := A) f (FMeasure (fun _ => Ok minus1)) = Ok f' /\ length (pf_parts f') = 2%nat /\ length (pf_wts f') = 2%nat).
  { intros f L1 L2. destruct f as [mn mx mo ps ws me co]. cbn [pf_parts pf_wts] in *.
    destruct ps as [|p [|q [|? ?]]]; try discriminate. destruct ws as [|w [|v [|? ?]]]; try discriminate.
    destruct minus1_ok as [F1 V1]. split.
    - cbn [op_ok64 pf_parts]. split.
      + intros x s _ H. injection H as <-. split; [exact F1|]. rewrite V1. split; [|lra].
        assert (1 <= bpow radix2 900) by (change 1 with (bpow radix2 0); apply bpow_le; lia). lra.
      + exists p, minus1. split; [left; reflexivity|]. split; [reflexivity|]. rewrite V1. lra.
    - eexists. split; [reflexivity|]. split; reflexivity. }
  assert (E0 : exists f0, filter_new (A := A) 2 2 m = Ok f0 /\ length (pf_parts f0) = 2%nat /\ length (pf_wts f0) = 2%nat).
  { eexists. split; [reflexivity|]. split; reflexivity. }
  destruct E0 as (f0 & E0 & A1 & A2). destruct (S f0 A1 A2) as (O1 & f1 & E1 & B1 & B2). destruct (S f1 B1 B2) as (O2 & f2 & E2 & D1 & D2).
  assert (O : ops_ok64 lm f0 weigh_ops).
  { split; [exact O1|]. intros g Hg. fold A in Hg. rewrite E1 in Hg. injection Hg as <-. split; [exact O2|]. intros; exact I. }
  assert (E : filter_run (A := A) f0 weigh_ops = Ok f2).
  { change (bind (filter_step (A := A) f0 (FMeasure (fun _ => Ok minus1))) (fun g =>
      bind (filter_step (A := A) g (FMeasure (fun _ => Ok minus1))) (fun h => Ok h)) = Ok f2).
    rewrite E1. cbn [bind]. rewrite E2. reflexivity. }
  exists f0, f2. split; [exact E0|]. split; [exact O|]. split; [exact E|].
  apply (C128_weights_distribution lm 2 2 m weigh_ops f0 f2); [lia|lia|exact E0|exact O|exact E].
Qed.
