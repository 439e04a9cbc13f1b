(** The bounds of the occupancy grid in double arithmetic, one coordinate. *)

From Coq Require Import ZArith Reals List Bool Lia Lra.
From Flocq Require Import Core BinarySingleNaN.
From Verif Require Import Outcome Arith TypesModel ScanModel OccGridModel SpecGrid SpecOcc OccProofs OccProofs2
  B64Tactics B64Lemmas CellB64 SpecMotion64 SpecPlace64 NearB64 PropAngle64 SpecOcc64.
Import ListNotations.
Local Open Scope R_scope.

Definition tiny : R := bpow radix2 (-18).
Lemma tiny_val : tiny = / 262144. Proof. reflexivity. Qed.

Lemma rnd_opp (x : R) : rnd (- x) = - rnd x.
Proof. unfold rnd. apply round_NE_opp. Qed.

(** ** Multiples of the side of a cell *)
Section Res.
Context (r : R) (Hr : 0 < r) (HH : usual_size (bpow radix2 32 * r)).
Let H : R := bpow radix2 32 * r.

Lemma p32 : bpow radix2 32 = 4294967296. Proof. reflexivity. Qed.
Lemma uH : u64 * H = / 2097152 * r.
Proof. unfold H. rewrite <- Rmult_assoc. f_equal. rewrite u64_val, p32. lra. Qed.

Lemma mul_err (k : Z) : Rabs (IZR k) <= bpow radix2 32 -> Rabs (rnd (IZR k * r) - IZR k * r) <= / 4 * tiny * r.
Proof.
  intros B. pose proof (near_rnd H HH 1 (IZR k * r) ltac:(lra)) as E.
  rewrite uH in E. rewrite tiny_val. eapply Rle_trans; [apply E|].
  - unfold H. rewrite Rabs_mult, (Rabs_pos_eq r), Rmult_1_l by lra. apply Rmult_le_compat_r; lra.
  - lra.
Qed.

Lemma div_err (m : R) : Rabs m <= bpow radix2 32 * r -> Rabs (m / r) <= bpow radix2 32 /\ Rabs (rnd (m / r) - m / r) <= / 4 * tiny.
Proof.
  intros B. assert (I : 0 < / r) by (apply Rinv_0_lt_compat; exact Hr).
  assert (B1 : Rabs (m / r) <= bpow radix2 32).
  { unfold Rdiv. rewrite Rabs_mult, (Rabs_pos_eq (/ r)) by lra. apply Rle_trans with (bpow radix2 32 * r * / r); [apply Rmult_le_compat_r; lra|right; field; lra]. }
  split; [exact B1|]. eapply Rle_trans; [apply rnd_err|].
  assert (u64 * Rabs (m / r) <= u64 * bpow radix2 32) by (apply Rmult_le_compat_l; [pose proof u64_pos; lra|exact B1]).
  assert (eta64 <= / 1000000000). { apply Rle_trans with (bpow radix2 (-30)); [apply bpow_le; lia|cbn; lra]. }
  rewrite u64_val, p32 in *. rewrite tiny_val. lra.
Qed.

(** The lower bound is the multiple [k]: at most zero, not above any of the
    positions, and not much below the lowest. *)
Definition snapped (V : list R) (n : nat) (k : Z) : Prop :=
  (k <= 0)%Z /\ (forall v, In v V -> IZR k <= v / r + tiny) /\ lowest V / r - INR n - tiny <= IZR k.

Definition moderate (V : list R) : Prop := forall v, In v V -> Rabs v <= bpow radix2 31 * r.

Lemma lowest_moderate (V : list R) : moderate V -> - (bpow radix2 31 * r) <= lowest V <= 0.
Proof.
  intros MV. destruct (lowest_le V 0) as [L0 _]. split; [|exact L0]. unfold lowest.
  assert (G : forall m, - (bpow radix2 31 * r) <= m -> - (bpow radix2 31 * r) <= fold_left Rmin V m).
  { clear L0. induction V as [|v V IH]; intros m Hm; cbn [fold_left]; [exact Hm|]. apply IH; [intros x X; apply MV; right; exact X|].
    apply Rmin_glb; [exact Hm|]. specialize (MV v (or_introl eq_refl)). apply Rabs_le_inv in MV. lra. }
  apply G. pose proof (bpow_gt_0 radix2 31). assert (0 < bpow radix2 31 * r) by (apply Rmult_lt_0_compat; lra). lra.
Qed.

Lemma div_le (a b : R) : a <= b -> a / r <= b / r.
Proof. intros L. apply Rmult_le_compat_r; [left; apply Rinv_0_lt_compat; exact Hr|exact L]. Qed.
Lemma div_mult (a : R) : a * r / r = a. Proof. field. lra. Qed.
Lemma div_plus (a b : R) : (a + b) / r = a / r + b / r. Proof. field. lra. Qed.

Lemma snapped_size (V : list R) (n : nat) (k : Z) : moderate V -> INR n <= bpow radix2 30 -> snapped V n k -> -3300000000 <= IZR k <= 0.
Proof.
  intros MV N (K0 & _ & K1). apply lowest_moderate in MV. destruct MV as [L _]. apply div_le in L.
  replace (- (bpow radix2 31 * r) / r) with (- bpow radix2 31) in L by (field; lra).
  apply IZR_le in K0. change (bpow radix2 31) with 2147483648 in *. change (bpow radix2 30) with 1073741824 in *. rewrite p32, tiny_val in *. lra.
Qed.

Lemma lowest_app (V W : list R) : lowest (V ++ W) <= lowest V /\ (forall w, In w W -> lowest (V ++ W) <= w).
Proof.
  unfold lowest. rewrite fold_left_app. destruct (lowest_le W (fold_left Rmin V 0)) as [A B]. split; assumption.
Qed.

(** One update with the positions [W]. *)
Lemma snap_real (V W : list R) (n : nat) (k : Z) (m : R) : moderate (V ++ W) -> INR n <= bpow radix2 30 -> snapped V n k ->
  m <= rnd (IZR k * r) -> (forall w, In w W -> m <= w + / 4 * tiny * r) ->
  (m = rnd (IZR k * r) \/ exists w, In w W /\ Rabs (m - w) <= / 4 * tiny * r) ->
  Rabs m <= bpow radix2 32 * r ->
  snapped (V ++ W) (S n) (Zfloor (rnd (m / r))).
Proof.
  intros MV N S Mk Mw Me Mb.
  assert (MV' : moderate V) by (intros v Hv; apply MV; apply in_or_app; left; exact Hv).
  pose proof (snapped_size V n k MV' N S) as KB. destruct S as (K0 & KV & KL).
  assert (KA : Rabs (IZR k) <= bpow radix2 32) by (apply Rabs_le; rewrite p32; lra).
  pose proof (mul_err k KA) as EK. destruct (div_err m Mb) as [_ EQ].
  set (q := rnd (m / r)) in *. pose proof (Zfloor_lb q) as F1. pose proof (Zfloor_ub q) as F2.
  pose proof tiny_val as TV. apply Rabs_le_inv in EK. apply Rabs_le_inv in EQ.
  assert (KK : (Zfloor q <= k)%Z).
  { apply Z.lt_succ_r. apply lt_IZR. rewrite succ_IZR. eapply Rle_lt_trans; [exact F1|].
    assert (m / r <= IZR k + / 4 * tiny).
    { replace (IZR k + / 4 * tiny) with ((IZR k * r + / 4 * tiny * r) / r) by (field; lra). apply div_le. lra. }
    lra. }
  destruct (lowest_app V W) as [LA LB].
  split; [lia|]. split.
  - intros v Hv. apply in_app_or in Hv. destruct Hv as [Hv|Hv].
    + apply IZR_le in KK. specialize (KV v Hv). lra.
    + specialize (Mw v Hv). apply div_le in Mw. rewrite div_plus in Mw. rewrite div_mult in Mw. lra.
  - rewrite S_INR. destruct Me as [Me|(w & Hw & Me)].
    + assert (IZR k - / 4 * tiny <= m / r).
      { replace (IZR k - / 4 * tiny) with ((IZR k * r - / 4 * tiny * r) / r) by (field; lra). apply div_le. lra. }
      assert (KK' : (k - 1 <= Zfloor q)%Z).
      { apply Z.lt_pred_le. apply lt_IZR. unfold Z.pred. rewrite plus_IZR, minus_IZR. lra. }
      apply IZR_le in KK'. rewrite minus_IZR in KK'. apply div_le in LA. lra.
    + apply Rabs_le_inv in Me. assert (w / r - / 4 * tiny <= m / r).
      { replace (w / r - / 4 * tiny) with ((w - / 4 * tiny * r) / r) by (field; lra). apply div_le. lra. }
      specialize (LB w Hw). apply div_le in LB. pose proof (pos_INR n). lra.
Qed.
End Res.

(** ** Doubles *)
Lemma Bltb_true (x y : b64) : is_finite x = true -> is_finite y = true -> Bltb x y = true -> B2R x < B2R y.
Proof. intros Fx Fy L. rewrite Bltb_correct in L by assumption. apply Rlt_bool_inv in L || (destruct (Rlt_bool_spec (B2R x) (B2R y)); [assumption|discriminate]). Qed.
Lemma Bltb_false (x y : b64) : is_finite x = true -> is_finite y = true -> Bltb x y = false -> B2R y <= B2R x.
Proof. intros Fx Fy L. rewrite Bltb_correct in L by assumption. destruct (Rlt_bool_spec (B2R x) (B2R y)); [discriminate|assumption]. Qed.

Lemma fold_min (lm : libm) (xs : list b64) (a : b64) : is_finite a = true -> Forall (fun x => is_finite x = true) xs ->
  let m := fold_left (fun a x => nmin (A := BA lm) x a) xs a in
  is_finite m = true /\ B2R m <= B2R a /\ (forall x, In x xs -> B2R m <= B2R x) /\ (m = a \/ In m xs).
Proof.
  revert a. induction xs as [|x xs IH]; intros a Fa Fx m; unfold m; cbn [fold_left].
  - split; [exact Fa|]. split; [lra|]. split; [intros ? []|left; reflexivity].
  - inversion Fx as [|? ? F Fx']; subst. set (a' := nmin (A := BA lm) x a).
    assert (A' : is_finite a' = true /\ B2R a' <= B2R a /\ B2R a' <= B2R x /\ (a' = a \/ a' = x)).
    { unfold a', nmin. change (nlt (Arith := BA lm) a x) with (Bltb a x). destruct (Bltb a x) eqn:E.
      - apply Bltb_true in E; [|assumption..]. repeat split; try assumption; try lra. left. reflexivity.
      - apply Bltb_false in E; [|assumption..]. repeat split; try assumption; try lra. right. reflexivity. }
    destruct A' as (F' & L1 & L2 & C). destruct (IH a' F' Fx') as (G1 & G2 & G3 & G4).
    split; [exact G1|]. split; [lra|]. split.
    + intros y [<-|Y]; [lra|apply G3; exact Y].
    + destruct G4 as [G4|G4]; [|right; right; exact G4]. rewrite G4. destruct C as [->| ->]; [left; reflexivity|right; left; reflexivity].
Qed.
Lemma fold_max (lm : libm) (xs : list b64) (a : b64) : is_finite a = true -> Forall (fun x => is_finite x = true) xs ->
  let m := fold_left (fun a x => nmax (A := BA lm) x a) xs a in
  is_finite m = true /\ B2R a <= B2R m /\ (forall x, In x xs -> B2R x <= B2R m) /\ (m = a \/ In m xs).
Proof.
  revert a. induction xs as [|x xs IH]; intros a Fa Fx m; unfold m; cbn [fold_left].
  - split; [exact Fa|]. split; [lra|]. split; [intros ? []|left; reflexivity].
  - inversion Fx as [|? ? F Fx']; subst. set (a' := nmax (A := BA lm) x a).
    assert (A' : is_finite a' = true /\ B2R a <= B2R a' /\ B2R x <= B2R a' /\ (a' = a \/ a' = x)).
    { unfold a', nmax. change (nlt (Arith := BA lm) x a) with (Bltb x a). destruct (Bltb x a) eqn:E.
      - apply Bltb_true in E; [|assumption..]. repeat split; try assumption; try lra. left. reflexivity.
      - apply Bltb_false in E; [|assumption..]. repeat split; try assumption; try lra. right. reflexivity. }
    destruct A' as (F' & L1 & L2 & C). destruct (IH a' F' Fx') as (G1 & G2 & G3 & G4).
    split; [exact G1|]. split; [lra|]. split.
    + intros y [<-|Y]; [lra|apply G3; exact Y].
    + destruct G4 as [G4|G4]; [|right; right; exact G4]. rewrite G4. destruct C as [->| ->]; [left; reflexivity|right; left; reflexivity].
Qed.

Lemma ceil64 (x : b64) : is_finite x = true ->
  B2R (Bnearbyint mode_UP x) = IZR (Zceil (B2R x)) /\ is_finite (Bnearbyint mode_UP x) = true.
Proof.
  intros F. destruct (Bnearbyint_correct 53 1024 prec64_lt_emax mode_UP x) as (V & G & _).
  split; [|rewrite G; exact F]. rewrite V.
  unfold round, F2R, scaled_mantissa, cexp, FIX_exp. cbn. rewrite !Rmult_1_r. reflexivity.
Qed.

Section Step.
Context (lm : libm) (res : b64) (r : R) (Fr : is_finite res = true) (Er : B2R res = r) (Ur : usual_cell r).

Lemma cell_pos : 0 < r.
Proof. eapply Rlt_le_trans; [apply bpow_gt_0|apply Ur]. Qed.
Lemma cell_size (k : Z) : (0 <= k <= 100)%Z -> usual_size (bpow radix2 k * r).
Proof.
  intros K. destruct Ur as [L U]. pose proof cell_pos. split.
  - apply Rle_trans with (bpow radix2 0 * r); [|apply Rmult_le_compat_r; [lra|apply bpow_le; lia]].
    change (bpow radix2 0) with 1. rewrite Rmult_1_l. eapply Rle_trans; [|exact L]. apply bpow_le. lia.
  - apply Rle_trans with (bpow radix2 k * bpow radix2 300).
    + apply Rmult_le_compat_l; [apply bpow_ge_0|exact U].
    + rewrite <- bpow_plus. apply bpow_le. lia.
Qed.
Lemma HH : usual_size (bpow radix2 32 * r). Proof. apply cell_size. lia. Qed.

Lemma res_div (m : b64) : is_finite m = true -> Rabs (B2R m) <= bpow radix2 32 * r ->
  is_finite (Bdiv mode_NE m res) = true /\ B2R (Bdiv mode_NE m res) = rnd (B2R m / r).
Proof.
  intros F B. pose proof cell_pos. destruct (div_err r cell_pos HH (B2R m) B) as [D _].
  destruct (b64_div_ok m res F) as [V G]; [lra| |rewrite Er in V; split; assumption].
  rewrite Er. eapply Rle_trans; [exact D|]. apply bpow_le. lia.
Qed.

Lemma res_mul (z : b64) (k : Z) : is_finite z = true -> B2R z = IZR k -> Rabs (IZR k) <= bpow radix2 32 ->
  is_finite (Bmult mode_NE z res) = true /\ B2R (Bmult mode_NE z res) = rnd (IZR k * r).
Proof.
  intros F V B. pose proof cell_pos. destruct (b64_mul_ok z res F Fr) as [W G]; [|rewrite W, V, Er; split; [exact G|reflexivity]].
  rewrite V, Er, Rabs_mult, (Rabs_pos_eq r) by lra. apply Rle_trans with (bpow radix2 32 * r); [apply Rmult_le_compat_r; lra|].
  eapply Rle_trans; [apply HH|]. apply bpow_le. lia.
Qed.

Definition lower (V : list R) (n : nat) (lo : b64) (k : Z) : Prop :=
  snapped r V n k /\ is_finite lo = true /\ B2R lo = rnd (IZR k * r).
Definition upper (V : list R) (n : nat) (hi : b64) (k : Z) : Prop :=
  snapped r (map Ropp V) n (- k) /\ is_finite hi = true /\ B2R hi = rnd (IZR k * r).

Lemma snapped_new : snapped r [] 0 0.
Proof. split; [lia|]. split; [intros ? []|]. unfold lowest. cbn [fold_left]. rewrite tiny_val. cbn [INR]. replace (0 / r) with 0 by (field; pose proof cell_pos; lra). lra. Qed.
Lemma lower_new : lower [] 0 (nzero (A := BA lm)) 0.
Proof. destruct (b64_ofZ 0) as [V F]; [lia|]. split; [apply snapped_new|]. split; [exact F|]. rewrite Rmult_0_l. unfold nzero. cbn [nofZ BA]. rewrite V. symmetry. apply round_0. apply valid_rnd_N. Qed.
Lemma upper_new : upper [] 0 (nzero (A := BA lm)) 0.
Proof. destruct (b64_ofZ 0) as [V F]; [lia|]. split; [apply snapped_new|]. split; [exact F|]. rewrite Rmult_0_l. unfold nzero. cbn [nofZ BA]. rewrite V. symmetry. apply round_0. apply valid_rnd_N. Qed.

Lemma snapped_more (V : list R) (n : nat) (k : Z) : snapped r V n k -> snapped r V (S n) k.
Proof. intros (A & B & C). split; [exact A|]. split; [exact B|]. rewrite S_INR. lra. Qed.

Lemma moderate_neg (V : list R) : moderate r V -> moderate r (map Ropp V).
Proof. intros H v Hv. apply in_map_iff in Hv. destruct Hv as (w & <- & Hw). rewrite Rabs_Ropp. apply H. exact Hw. Qed.

Lemma Forall2_in_l {X Y} (P : X -> Y -> Prop) (xs : list X) (ys : list Y) (x : X) : Forall2 P xs ys -> In x xs -> exists y, In y ys /\ P x y.
Proof. intros F. induction F as [|a b l l' H F IH]; [intros []|intros [->|I]]; [exists b; split; [left; reflexivity|exact H]|]. destruct (IH I) as (y & yI & Q). exists y. split; [right; exact yI|exact Q]. Qed.
Lemma Forall2_in_r {X Y} (P : X -> Y -> Prop) (xs : list X) (ys : list Y) (y : Y) : Forall2 P xs ys -> In y ys -> exists x, In x xs /\ P x y.
Proof. intros F. induction F as [|a b l l' H F IH]; [intros []|intros [->|I]]; [exists a; split; [left; reflexivity|exact H]|]. destruct (IH I) as (x & yI & Q). exists x. split; [right; exact yI|exact Q]. Qed.

Lemma bound_size (V W : list R) (xs : list b64) (n : nat) (k : Z) (a m : b64) : moderate r (V ++ W) -> INR (S n) <= bpow radix2 30 ->
  Forall2 (close (/ 4 * tiny * r)) xs W -> -3300000000 <= IZR k <= 3300000000 -> B2R a = rnd (IZR k * r) ->
  (m = a \/ In m xs) -> Rabs (B2R m) <= bpow radix2 32 * r.
Proof.
  intros MV N F K Ea C. pose proof cell_pos as P. pose proof tiny_val as TV. rewrite p32. destruct C as [->|I].
  - pose proof (mul_err r P HH k ltac:(rewrite p32; apply Rabs_le; lra)) as E. rewrite <- Ea in E.
    replace (B2R a) with ((B2R a - IZR k * r) + IZR k * r) by ring. eapply Rle_trans; [apply Rabs_triang|].
    rewrite (Rabs_mult (IZR k)), (Rabs_pos_eq r) by lra.
    assert (Rabs (IZR k) * r <= 3300000000 * r) by (apply Rmult_le_compat_r; [lra|apply Rabs_le; lra]).
    rewrite TV in E. lra.
  - destruct (Forall2_in_l _ _ _ _ F I) as (w & Hw & _ & E). specialize (MV w ltac:(apply in_or_app; right; exact Hw)).
    replace (B2R m) with ((B2R m - w) + w) by ring. eapply Rle_trans; [apply Rabs_triang|].
    change (bpow radix2 31) with 2147483648 in MV. rewrite TV in E. lra.
Qed.

Lemma close_fin (e : R) (xs : list b64) (W : list R) : Forall2 (close e) xs W -> Forall (fun x => is_finite x = true) xs.
Proof. intros F. induction F as [|x w xs W [H _] F IH]; constructor; assumption. Qed.

Lemma lower_step (V W : list R) (xs : list b64) (n : nat) (lo : b64) (k : Z) : moderate r (V ++ W) -> INR (S n) <= bpow radix2 30 ->
  Forall2 (close (/ 4 * tiny * r)) xs W -> lower V n lo k ->
  exists k', lower (V ++ W) (S n) (Bmult mode_NE (Bnearbyint mode_DN (Bdiv mode_NE (fold_left (fun a x => nmin (A := BA lm) x a) xs lo) res)) res) k'.
Proof.
  intros MV N F (S & Fl & El). pose proof cell_pos as P.
  assert (MV' : moderate r V) by (intros v Hv; apply MV; apply in_or_app; left; exact Hv).
  assert (N' : INR n <= bpow radix2 30) by (rewrite S_INR in N; lra).
  pose proof (snapped_size r P HH V n k MV' N' S) as KB.
  destruct (fold_min lm xs lo Fl (close_fin _ _ _ F)) as (Fm & M1 & M2 & M3). set (m := fold_left _ xs lo) in *.
  pose proof (bound_size V W xs n k lo m MV N F ltac:(lra) El M3) as MB.
  destruct (res_div m Fm MB) as [Fd Vd]. destruct (floor64 _ Fd) as [Vf Ff].
  assert (S' : snapped r (V ++ W) (Datatypes.S n) (Zfloor (rnd (B2R m / r)))).
  { apply (snap_real r P HH V W n k (B2R m) MV N' S).
    - rewrite <- El. exact M1.
    - intros w Hw. destruct (Forall2_in_r _ _ _ _ F Hw) as (x & Hx & _ & E). specialize (M2 x Hx). apply Rabs_le_inv in E. lra.
    - destruct M3 as [->|I]; [left; exact El|right]. destruct (Forall2_in_l _ _ _ _ F I) as (w & Hw & _ & E). exists w. split; assumption.
    - exact MB. }
  rewrite Vd in Vf. pose proof (snapped_size r P HH _ _ _ MV N S') as KB'.
  destruct (res_mul _ _ Ff Vf) as [Fp Vp]; [rewrite p32; apply Rabs_le; lra|].
  exists (Zfloor (rnd (B2R m / r))). split; [exact S'|]. split; assumption.
Qed.

Lemma upper_step (V W : list R) (xs : list b64) (n : nat) (hi : b64) (k : Z) : moderate r (V ++ W) -> INR (S n) <= bpow radix2 30 ->
  Forall2 (close (/ 4 * tiny * r)) xs W -> upper V n hi k ->
  exists k', upper (V ++ W) (S n) (Bmult mode_NE (Bnearbyint mode_UP (Bdiv mode_NE (fold_left (fun a x => nmax (A := BA lm) x a) xs hi) res)) res) k'.
Proof.
  intros MV N F (S & Fl & El). pose proof cell_pos as P.
  assert (MV' : moderate r (map Ropp V)) by (apply moderate_neg; intros v Hv; apply MV; apply in_or_app; left; exact Hv).
  assert (MW : moderate r (map Ropp V ++ map Ropp W)) by (rewrite <- map_app; apply moderate_neg; exact MV).
  assert (N' : INR n <= bpow radix2 30) by (rewrite S_INR in N; lra).
  pose proof (snapped_size r P HH (map Ropp V) n (- k) MV' N' S) as KB. rewrite opp_IZR in KB.
  destruct (fold_max lm xs hi Fl (close_fin _ _ _ F)) as (Fm & M1 & M2 & M3). set (m := fold_left _ xs hi) in *.
  pose proof (bound_size V W xs n k hi m MV N F ltac:(lra) El M3) as MB.
  destruct (res_div m Fm MB) as [Fd Vd]. destruct (ceil64 _ Fd) as [Vf Ff].
  assert (RN : forall j, rnd (IZR (- j) * r) = - rnd (IZR j * r)).
  { intros j. rewrite opp_IZR, Ropp_mult_distr_l_reverse. apply rnd_opp. }
  assert (S' : snapped r (map Ropp (V ++ W)) (Datatypes.S n) (- Zceil (rnd (B2R m / r)))).
  { unfold Zceil. rewrite Z.opp_involutive. replace (- rnd (B2R m / r)) with (rnd ((- B2R m) / r)) by (rewrite <- rnd_opp; f_equal; field; lra).
    rewrite map_app. apply (snap_real r P HH (map Ropp V) (map Ropp W) n (- k) (- B2R m) MW N' S).
    - rewrite RN, <- El. lra.
    - intros w' Hw. apply in_map_iff in Hw. destruct Hw as (w & <- & Hw).
      destruct (Forall2_in_r _ _ _ _ F Hw) as (x & Hx & _ & E). specialize (M2 x Hx). apply Rabs_le_inv in E. lra.
    - destruct M3 as [->|I]; [left; rewrite RN, <- El; reflexivity|right].
      destruct (Forall2_in_l _ _ _ _ F I) as (w & Hw & _ & E). exists (- w). split; [apply in_map; exact Hw|].
      replace (- B2R m - - w) with (- (B2R m - w)) by ring. rewrite Rabs_Ropp. exact E.
    - rewrite Rabs_Ropp. exact MB. }
  rewrite Vd in Vf. pose proof (snapped_size r P HH _ _ _ (moderate_neg _ MV) N S') as KB'. rewrite opp_IZR in KB'.
  destruct (res_mul _ _ Ff Vf) as [Fp Vp]; [rewrite p32; apply Rabs_le; lra|].
  exists (Zceil (rnd (B2R m / r))). split; [exact S'|]. split; assumption.
Qed.

(** ** Cells *)
Lemma mult_near (x : b64) (k : Z) : Rabs (IZR k) <= bpow radix2 32 -> is_finite x = true -> B2R x = rnd (IZR k * r) -> near (bpow radix2 32 * r) 2 1 x (IZR k * r).
Proof.
  intros B F V. pose proof cell_pos. split; [exact F|]. rewrite uH, V. split.
  - eapply Rle_trans; [apply (mul_err r cell_pos HH); exact B|]. rewrite tiny_val. lra.
  - rewrite Rabs_mult, (Rabs_pos_eq r), Rmult_1_l by lra. apply Rmult_le_compat_r; lra.
Qed.

Lemma cell_of (x : b64) (b v : R) : near (bpow radix2 32 * r) 16 b x v -> Rabs v <= bpow radix2 31 * r ->
  let q := Bdiv mode_NE x res in is_finite q = true /\ Rabs (B2R q - v / r) <= 3 * tiny.
Proof.
  intros (F & E & _) B q. pose proof cell_pos as P. rewrite uH in E. pose proof tiny_val as TV.
  assert (X : Rabs (B2R x) <= bpow radix2 32 * r).
  { replace (B2R x) with ((B2R x - v) + v) by ring. eapply Rle_trans; [apply Rabs_triang|]. rewrite p32. change (bpow radix2 31) with 2147483648 in B. lra. }
  destruct (res_div x F X) as [Fq Vq]. split; [exact Fq|]. unfold q. rewrite Vq. destruct (div_err r P HH _ X) as [_ D].
  replace (rnd (B2R x / r) - v / r) with ((rnd (B2R x / r) - B2R x / r) + (B2R x - v) / r) by (field; lra).
  eapply Rle_trans; [apply Rabs_triang|].
  assert (Rabs ((B2R x - v) / r) <= 2 * tiny).
  { unfold Rdiv. rewrite Rabs_mult, (Rabs_pos_eq (/ r)) by (left; apply Rinv_0_lt_compat; exact P).
    apply Rle_trans with (2 * tiny * r * / r); [apply Rmult_le_compat_r; [left; apply Rinv_0_lt_compat; exact P|rewrite TV; lra]|right; field; lra]. }
  rewrite TV in *. lra.
Qed.

Lemma trunc_range (q : b64) : is_finite q = true -> 0 <= B2R q ->
  exists i, ntrunc (Arith := BA lm) q = Some i /\ (0 <= i)%Z /\ IZR i <= B2R q < IZR i + 1.
Proof.
  intros F Q. exists (Ztrunc (B2R q)). split; [cbn [ntrunc BA]; apply b64_trunc_ok; exact F|].
  rewrite Ztrunc_floor by exact Q. split; [apply Zfloor_lub; exact Q|]. split; [apply Zfloor_lb|apply Zfloor_ub].
Qed.
End Step.
