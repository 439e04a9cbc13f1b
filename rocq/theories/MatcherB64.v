(** Scan matcher in binary64 arithmetic. *)

From Coq Require Import ZArith Reals List Bool Lia Lra Psatz Sorted.
From Flocq Require Import Core BinarySingleNaN.
From Verif Require Import Outcome Arith TypesModel CellModel ScanModel NdtModel MatcherModel
  B64Tactics B64Lemmas NdtProofs MatcherProofs.
Import ListNotations.
Local Open Scope R_scope.

(** * Beam indices *)

Section Beams.
Variables (n u : Z).
Hypothesis Hu : (1 <= u)%Z.
Hypothesis Hun : (u <= n)%Z.
Hypothesis Hn : (n <= 2 ^ 52)%Z.

Let Ru : R := IZR u.
Let Rn : R := IZR n.
Let q : R := Rn / Ru.
Let s : R := rnd q.

Lemma Ru_pos : 1 <= Ru. Proof. apply IZR_le. exact Hu. Qed.
Lemma Run : Ru <= Rn. Proof. apply IZR_le. exact Hun. Qed.
Lemma Rn_bound : Rn <= bpow radix2 52.
Proof. apply Rle_trans with (IZR (2 ^ 52)); [apply IZR_le; exact Hn|cbn; lra]. Qed.

Lemma q_bounds : 1 <= q <= Rn.
Proof.
  pose proof Ru_pos as H1. pose proof Run as H2. unfold q. 
  assert (E : Rn / Ru * Ru = Rn) by (field; lra).
  assert (Hi : 0 < / Ru) by (apply Rinv_0_lt_compat; lra).
  assert (Hi1 : / Ru <= 1) by (rewrite <- Rinv_1; apply Rinv_le; lra).
  split.
  - apply (Rmult_le_reg_r Ru); lra.
  - unfold Rdiv. nra.
Qed.

Lemma s_bounds : 1 <= s <= Rn.
Proof.
  pose proof q_bounds as [H1 H2]. split.
  - apply rnd_lb; [apply (fmt_int 1); cbn; lia|exact H1].
  - apply rnd_ub; [apply fmt_int; lia|exact H2].
Qed.

Lemma s_error : s <= q * (1 + bpow radix2 (-53)).
Proof.
  pose proof q_bounds as [H1 _]. pose proof (rnd_error q) as H. fold s in H.
  rewrite (Rabs_pos_eq q) in H by lra.
  rewrite Rmax_right in H.
  - apply Rabs_le_inv in H. lra.
  - apply Rle_trans with (bpow radix2 (-53)); [apply bpow_le; lia|].
    assert (0 < bpow radix2 (-53)) by apply bpow_gt_0. nra.
Qed.

(** The i-th product stays half a point below the number of points. *)
Lemma product_bound (i : Z) : (0 <= i < u)%Z -> 0 <= IZR i * s <= Rn - / 2.
Proof.
  intros Hi. pose proof q_bounds as [Q1 Q2]. pose proof s_bounds as [S1 S2]. pose proof s_error as Se.
  pose proof Ru_pos as U1. pose proof Rn_bound as Nb.
  assert (I0 : 0 <= IZR i) by (apply IZR_le; lia).
  assert (I1 : IZR i <= Ru - 1) by (unfold Ru; rewrite <- minus_IZR; apply IZR_le; lia).
  split; [apply Rmult_le_pos; lra|].
  assert (B : 0 < bpow radix2 (-53)) by apply bpow_gt_0.
  assert (Eq : q * Ru = Rn) by (unfold q; field; lra).
  assert (IZR i * s <= (Ru - 1) * (q * (1 + bpow radix2 (-53)))) by (apply Rmult_le_compat; lra).
  assert (Bn : Rn * bpow radix2 (-53) <= / 2).
  { apply Rle_trans with (bpow radix2 52 * bpow radix2 (-53)); [apply Rmult_le_compat_r; lra|].
    rewrite <- bpow_plus. cbn. lra. }
  assert (E2 : (Ru - 1) * (q * (1 + bpow radix2 (-53))) = Rn + Rn * bpow radix2 (-53) - q * (1 + bpow radix2 (-53))).
  { rewrite <- Eq. ring. }
  assert (q * (1 + bpow radix2 (-53)) >= 1) by nra. lra.
Qed.

Lemma rounded_bound (i : Z) : (0 <= i < u)%Z -> 0 <= rnd (IZR i * s) <= Rn - / 2.
Proof.
  intros Hi. pose proof (product_bound i Hi) as [H1 H2]. split.
  - apply rnd_lb; [apply (fmt_int 0); cbn; lia|exact H1].
  - apply rnd_ub; [|exact H2]. unfold Rn. replace (IZR n - / 2) with (IZR (2 * n - 1) / 2).
    + apply fmt_half. lia.
    + rewrite minus_IZR, mult_IZR. lra.
Qed.

(** Gaps between floats do not shrink. *)
Lemma gap_monotone (k : Z) : (1 <= k)%Z -> (k + 1 <= 2 ^ 53)%Z ->
  IZR k - pred radix2 fexp64 (IZR k) <= IZR (k + 1) - pred radix2 fexp64 (IZR (k + 1)).
Proof.
  intros Hk Hb.
  assert (P1 : 0 < IZR k) by (apply IZR_lt; lia). assert (P2 : 0 < IZR (k + 1)) by (apply IZR_lt; lia).
  assert (F1 : fmt (IZR k)) by (apply fmt_int; lia). assert (F2 : fmt (IZR (k + 1))) by (apply fmt_int; lia).
  pose proof (pred_plus_ulp radix2 fexp64 (IZR k) P1 F1) as E1.
  pose proof (pred_plus_ulp radix2 fexp64 (IZR (k + 1)) P2 F2) as E2.
  assert (ulp radix2 fexp64 (pred radix2 fexp64 (IZR k)) <= ulp radix2 fexp64 (pred radix2 fexp64 (IZR (k + 1)))).
  { apply ulp_le_pos; [typeclasses eauto|typeclasses eauto| |].
    - apply pred_ge_0; [typeclasses eauto|exact P1|exact F1].
    - apply pred_le; [typeclasses eauto|exact F1|exact F2|]. apply IZR_le. lia. }
  lra.
Qed.

Lemma rnd_step (x : R) (k : Z) : 0 <= x -> 1 < s -> (0 <= k)%Z -> (k + 1 <= 2 ^ 53)%Z ->
  IZR k <= rnd x -> IZR (k + 1) <= rnd (x + s).
Proof.
  intros Hx Hs Hk Hb Hle.
  assert (F2 : fmt (IZR (k + 1))) by (apply fmt_int; lia).
  destruct (Z.eq_dec k 0) as [->|Hk0].
  - apply rnd_lb; [exact F2|]. cbn. lra.
  - assert (F1 : fmt (IZR k)) by (apply fmt_int; lia).
    pose proof (gap_monotone k ltac:(lia) Hb) as Hgap.
    assert (Hmid : (IZR k + pred radix2 fexp64 (IZR k)) / 2 <= x).
    { destruct (Rle_lt_dec ((IZR k + pred radix2 fexp64 (IZR k)) / 2) x) as [H|H]; [exact H|exfalso].
      assert (Fp : fmt (pred radix2 fexp64 (IZR k))) by (apply generic_format_pred; [typeclasses eauto|exact F1]).
      pose proof (round_N_le_midp radix2 fexp64 (fun z => negb (Z.even z)) (pred radix2 fexp64 (IZR k)) x Fp) as Hm.
      rewrite succ_pred in Hm by (typeclasses eauto || exact F1).
      assert (rnd x <= pred radix2 fexp64 (IZR k)) by (apply Hm; lra).
      assert (pred radix2 fexp64 (IZR k) < IZR k).
      { apply pred_lt_id. intros E. apply eq_IZR in E. lia. }
      lra. }
    apply (round_N_ge_midp radix2 fexp64 (fun z => negb (Z.even z)) (IZR (k + 1)) (x + s) F2).
    rewrite plus_IZR in *. lra.
Qed.

(** The index the code computes. *)
Definition exact_index (i : Z) : Z := Ztrunc (rnd (IZR i * s)).

Lemma exact_index_bounds (i : Z) : (0 <= i < u)%Z -> (0 <= exact_index i < n)%Z.
Proof.
  intros Hi. pose proof (rounded_bound i Hi) as [H1 H2]. unfold exact_index.
  rewrite Ztrunc_floor by exact H1. split.
  - apply Zfloor_lub. exact H1.
  - apply lt_IZR. apply Rle_lt_trans with (rnd (IZR i * s)); [apply Zfloor_lb|]. fold Rn. lra.
Qed.

Lemma exact_index_id (i : Z) : (0 <= i < u)%Z -> s = 1 -> exact_index i = i.
Proof.
  intros Hi E. unfold exact_index. rewrite E, Rmult_1_r, rnd_fmt by (apply fmt_int; lia). apply Ztrunc_IZR.
Qed.

Lemma exact_index_step (i : Z) : (0 <= i)%Z -> (i + 1 < u)%Z -> (exact_index i < exact_index (i + 1))%Z.
Proof.
  intros H0 H1. destruct s_bounds as [Hs _]. destruct Hs as [Hs|Hs].
  - pose proof (rounded_bound i ltac:(lia)) as [B1 B2].
    pose proof (rounded_bound (i + 1) ltac:(lia)) as [C1 C2].
    pose proof (product_bound i ltac:(lia)) as [P1 _].
    pose proof (exact_index_bounds i ltac:(lia)) as Hb.
    unfold exact_index in *. rewrite Ztrunc_floor in * by assumption.
    set (k := Zfloor (rnd (IZR i * s))) in *.
    apply Z.lt_le_trans with (k + 1)%Z; [lia|]. rewrite Ztrunc_floor by exact C1. apply Zfloor_lub.
    replace (IZR (i + 1) * s) with (IZR i * s + s) by (rewrite plus_IZR; ring).
    apply rnd_step; try assumption; try lia. apply Zfloor_lb.
  - rewrite !exact_index_id by (lia || congruence). lia.
Qed.

(** The i-th index is where the i-th of u evenly spread beams is, to within one
    beam and the rounding. *)
Lemma exact_index_near (i : Z) : (0 <= i < u)%Z -> Rabs (IZR (exact_index i) - IZR i * Rn / Ru) <= 1 + Rn / 2 ^ 51.
Proof.
  intros Hi. pose proof (rounded_bound i Hi) as [B1 B2]. pose proof (product_bound i Hi) as [P1 P2].
  pose proof q_bounds as [Q1 Q2]. pose proof s_bounds as [S1 S2]. pose proof Ru_pos as U1. pose proof Rn_bound as Nb.
  assert (E53 : bpow radix2 (-53) = / 2 ^ 53) by (cbn; lra).
  assert (B53 : 0 < bpow radix2 (-53)) by apply bpow_gt_0.
  assert (I0 : 0 <= IZR i) by (apply IZR_le; lia).
  assert (I1 : IZR i <= Ru) by (unfold Ru; apply IZR_le; lia).
  assert (Eq : q * Ru = Rn) by (unfold q; field; lra).
  pose proof (rnd_error (IZR i * s)) as R1. pose proof (rnd_error q) as R2. fold s in R2.
  assert (T : forall x, 0 <= x -> x <= 2 * Rn -> Rmax (bpow radix2 (-1075)) (bpow radix2 (-53) * Rabs x) <= bpow radix2 (-53) * (2 * Rn)).
  { intros x X0 X1. apply Rmax_lub.
    - apply Rle_trans with (bpow radix2 (-53) * 1); [rewrite Rmult_1_r; apply bpow_le; lia|].
      apply Rmult_le_compat_l; lra.
    - rewrite Rabs_pos_eq by exact X0. apply Rmult_le_compat_l; lra. }
  pose proof (T _ P1 ltac:(lra)) as T1.
  assert (T2 : Rabs (s - q) <= bpow radix2 (-53) * q).
  { eapply Rle_trans; [exact R2|]. rewrite Rabs_pos_eq by lra. apply Rmax_lub; [|lra].
    apply Rle_trans with (bpow radix2 (-53) * 1); [rewrite Rmult_1_r; apply bpow_le; lia|apply Rmult_le_compat_l; lra]. }
  assert (T3 : Rabs (IZR i * s - IZR i * q) <= bpow radix2 (-53) * Rn).
  { rewrite <- Rmult_minus_distr_l, Rabs_mult, (Rabs_pos_eq (IZR i)) by exact I0.
    apply Rle_trans with (Ru * (bpow radix2 (-53) * q)); [apply Rmult_le_compat; try assumption; try apply Rabs_pos; lra|].
    rewrite <- Eq. lra. }
  assert (F1 : Rabs (IZR (exact_index i) - rnd (IZR i * s)) <= 1).
  { unfold exact_index. rewrite Ztrunc_floor by exact B1.
    pose proof (Zfloor_lb (rnd (IZR i * s))). pose proof (Zfloor_ub (rnd (IZR i * s))). apply Rabs_le. lra. }
  replace (IZR i * Rn / Ru) with (IZR i * q) by (unfold q, Rdiv; ring).
  apply Rabs_le_inv in F1. apply Rabs_le_inv in T3.
  assert (T1' : Rabs (rnd (IZR i * s) - IZR i * s) <= bpow radix2 (-53) * (2 * Rn)) by (eapply Rle_trans; eassumption).
  apply Rabs_le_inv in T1'. rewrite E53 in *.
  assert (E : / 2 ^ 53 * (2 * Rn) + / 2 ^ 53 * Rn <= Rn / 2 ^ 51) by (unfold Rn in *; lra).
  apply Rabs_le. lra.
Qed.

Lemma exact_index_all (i : Z) : u = n -> (0 <= i < u)%Z -> exact_index i = i.
Proof.
  intros E Hi. apply exact_index_id; [exact Hi|]. unfold s, q, Rn, Ru. rewrite E.
  replace (IZR n / IZR n) with (IZR 1); [apply rnd_fmt; apply fmt_int; cbn; lia|].
  cbn. field. apply not_0_IZR. lia.
Qed.

End Beams.

Lemma beam_index_b64 (lm : libm) (n u i : Z) :
  (1 <= u)%Z -> (u <= n)%Z -> (n <= 2 ^ 52)%Z -> (0 <= i < u)%Z ->
  beam_index (A := BA lm) (Bdiv mode_NE (b64_of n 0) (b64_of u 0)) i = Ok (exact_index n u i).
Proof.
  intros Hu Hun Hn Hi.
  destruct (b64_ofZ n ltac:(lia)) as [En Fn]. destruct (b64_ofZ u ltac:(lia)) as [Eu Fu].
  destruct (b64_ofZ i ltac:(lia)) as [Ei Fi].
  pose proof (q_bounds n u Hu Hun) as [Q1 Q2]. pose proof (s_bounds n u Hu Hun Hn) as [S1 S2].
  assert (Hbig : IZR n <= bpow radix2 1023).
  { apply Rle_trans with (Rabs (IZR n)); [apply Rle_abs|]. apply IZR_bpow1023. lia. }
  assert (U0 : IZR u <> 0) by (apply not_0_IZR; lia).
  destruct (b64_div_ok (b64_of n 0) (b64_of u 0)) as [Ed Fd]; [exact Fn|rewrite Eu; exact U0| |].
  { rewrite En, Eu, Rabs_pos_eq by lra. lra. }
  rewrite En, Eu in Ed.
  pose proof (product_bound n u Hu Hun Hn i Hi) as [P1 P2].
  destruct (b64_mul_ok (b64_of i 0) (Bdiv mode_NE (b64_of n 0) (b64_of u 0))) as [Em Fm]; [exact Fi|exact Fd| |].
  { rewrite Ei, Ed, Rabs_pos_eq by exact P1. lra. }
  rewrite Ei, Ed in Em.
  unfold beam_index, cast_unsigned. cbn [ntrunc nofZ nmul BA]. rewrite b64_trunc_ok by exact Fm. rewrite Em.
  pose proof (exact_index_bounds n u Hu Hun Hn i Hi) as Hb. unfold exact_index in *.
  destruct (Z.leb_spec 0 (Ztrunc (rnd (IZR i * rnd (IZR n / IZR u))))); [|lia].
  destruct (Z.ltb_spec (Ztrunc (rnd (IZR i * rnd (IZR n / IZR u)))) (2 ^ 64)); [reflexivity|lia].
Qed.

Lemma mapM_ok {X Y} (f : X -> outcome Y) (h : X -> Y) (l : list X) :
  (forall x, In x l -> f x = Ok (h x)) -> mapM f l = Ok (map h l).
Proof.
  induction l as [|x l IH]; intros H; cbn [mapM map]; [reflexivity|].
  rewrite (H x (or_introl eq_refl)). cbn [bind]. rewrite IH by (intros y Hy; apply H; right; exact Hy). reflexivity.
Qed.

Lemma mapM_total {X Y} (f : X -> outcome Y) (P : X -> Y -> Prop) (l : list X) :
  (forall x, In x l -> exists y, f x = Ok y /\ P x y) -> exists ys, mapM f l = Ok ys /\ Forall2 P l ys.
Proof.
  induction l as [|x l IH]; intros H; cbn [mapM]; [exists []; split; [reflexivity|constructor]|].
  destruct (H x (or_introl eq_refl)) as (y & Hy & Py).
  destruct IH as (ys & Hys & Fys); [intros z Hz; apply H; right; exact Hz|].
  exists (y :: ys). rewrite Hy. cbn [bind]. rewrite Hys. split; [reflexivity|constructor; assumption].
Qed.

Lemma sorted_seq_map (h : Z -> Z) (len : nat) : forall (a : nat),
  (forall i, (a <= i)%nat -> (S i < a + len)%nat -> (h (Z.of_nat i) < h (Z.of_nat (S i)))%Z) ->
  StronglySorted Z.lt (map h (map Z.of_nat (seq a len))).
Proof.
  intros a H. apply Sorted_StronglySorted; [exact Z.lt_trans|].
  revert a H. induction len as [|len IH]; intros a H; cbn [seq map]; [constructor|].
  constructor.
  - apply IH. intros i Hi Hl. apply H; lia.
  - destruct len as [|len]; cbn [seq map]; [constructor|]. constructor. apply H; lia.
Qed.

(** Which points the matcher looks at. *)
Lemma beam_points_b64 (lm : libm) (m : matcher b64) (pts : list (point b64)) :
  (1 <= k_beams m)%Z -> pts <> [] -> (Z.of_nat (length pts) <= 2 ^ 52)%Z ->
  exists idxs bp,
    beam_points (A := BA lm) m pts = Ok bp /\
    Forall2 (fun i p => nth_error pts (Z.to_nat i) = Some p) idxs bp /\
    Z.of_nat (length idxs) = Z.min (k_beams m) (Z.of_nat (length pts)) /\
    hd_error idxs = Some 0%Z /\ StronglySorted Z.lt idxs /\
    Forall (fun i => (0 <= i < Z.of_nat (length pts))%Z) idxs /\
    (forall j i, nth_error idxs j = Some i ->
       Rabs (IZR i - INR j * INR (length pts) / INR (length idxs)) <= 1 + INR (length pts) / 2 ^ 51) /\
    ((Z.of_nat (length pts) <= k_beams m)%Z -> bp = pts).
Proof.
  intros Hb Hp Hl. set (n := Z.of_nat (length pts)) in *. set (u := Z.min (k_beams m) n).
  assert (Hn1 : (1 <= n)%Z) by (unfold n; destruct pts; [congruence|cbn [length]; lia]).
  assert (Hu : (1 <= u)%Z) by lia. assert (Hun : (u <= n)%Z) by lia.
  set (is := map Z.of_nat (seq 0 (Z.to_nat u))).
  assert (His : forall i, In i is -> (0 <= i < u)%Z).
  { intros i Hi. unfold is in Hi. apply in_map_iff in Hi. destruct Hi as (k & <- & Hk). apply in_seq in Hk. lia. }
  destruct (mapM_total (fun i => bind (beam_index (A := BA lm) (scan_step_size (A := BA lm) m pts) i) (fun idx => vec_get pts idx))
             (fun i p => nth_error pts (Z.to_nat (exact_index n u i)) = Some p) is) as (bp & Hbp & Hf).
  { intros i Hi. specialize (His i Hi).
    pose proof (exact_index_bounds n u Hu Hun Hl i His) as Hx.
    destruct (vec_get_ok pts (exact_index n u i) Hx) as (p & Hg & Hnth).
    exists p. split; [|exact Hnth].
    unfold scan_step_size, beams_used. fold n. fold u.
    change (ndiv (Arith := BA lm) (nofZ n) (nofZ u)) with (Bdiv mode_NE (b64_of n 0) (b64_of u 0)).
    rewrite beam_index_b64 by assumption. exact Hg. }
  exists (map (exact_index n u) is), bp.
  assert (Hlen : length is = Z.to_nat u) by (unfold is; rewrite map_length, seq_length; reflexivity).
  split; [exact Hbp|]. split.
  { clear - Hf. induction Hf as [|i p l ps H1 Hf IH]; cbn [map]; constructor; assumption. }
  split; [rewrite map_length, Hlen; lia|]. split.
  { unfold is. destruct (Z.to_nat u) as [|k] eqn:E; [lia|]. cbn [seq map hd_error]. f_equal.
    unfold exact_index. cbn [Z.of_nat]. rewrite Rmult_0_l. rewrite rnd_fmt by (apply (fmt_int 0); cbn; lia). apply Ztrunc_IZR. }
  split.
  { unfold is. apply sorted_seq_map. intros i _ Hi. rewrite Nat2Z.inj_succ. apply exact_index_step; lia. }
  split.
  { apply Forall_forall. intros j Hj. apply in_map_iff in Hj. destruct Hj as (i & <- & Hi).
    apply exact_index_bounds; try assumption. apply His. exact Hi. }
  split.
  { intros j i Hj. rewrite nth_error_map in Hj. destruct (nth_error is j) as [i0|] eqn:Ej; [|discriminate].
    cbn in Hj. injection Hj as <-. unfold is in Ej. rewrite nth_error_map in Ej.
    destruct (nth_error (seq 0 (Z.to_nat u)) j) as [j'|] eqn:Es; [|discriminate]. cbn in Ej. injection Ej as <-.
    assert (Hjl : (j < Z.to_nat u)%nat) by (rewrite <- (seq_length (Z.to_nat u) 0); apply nth_error_Some; rewrite Es; discriminate).
    rewrite (nth_error_nth' _ 0%nat) in Es by (rewrite seq_length; exact Hjl). rewrite seq_nth in Es by exact Hjl.
    injection Es as <-. cbn [Nat.add].
    pose proof (exact_index_near n u Hu Hun Hl (Z.of_nat j) ltac:(lia)) as Hx.
    rewrite map_length, Hlen, !INR_IZR_INZ, Z2Nat.id by lia. exact Hx. }
  intros Hall. assert (Eun : u = n) by lia.
  assert (Hid : Forall2 (fun i p => nth_error pts (Z.to_nat i) = Some p) is bp).
  { clear - Hf His Hu Hun Hl Eun. induction Hf as [|i p l ps H1 Hf IH]; constructor.
    - rewrite exact_index_all in H1; try assumption. apply His. left; reflexivity.
    - apply IH. intros j Hj. apply His. right; exact Hj. }
  unfold is in Hid. rewrite Eun in Hid. unfold n in Hid. rewrite Nat2Z.id in Hid. clear - Hid.
  assert (G : forall (done rest bp : list (point b64)),
    Forall2 (fun i p => nth_error (done ++ rest) (Z.to_nat i) = Some p) (map Z.of_nat (seq (length done) (length rest))) bp -> bp = rest).
  { intros done rest. revert done. induction rest as [|x rest IH]; intros done bp' H; cbn [length seq map] in H.
    - inversion H. reflexivity.
    - inversion H as [|i p l ps H1 H2]; subst. rewrite Nat2Z.id in H1. rewrite nth_error_app2, Nat.sub_diag in H1 by lia.
      cbn in H1. injection H1 as <-. f_equal. apply (IH (done ++ [x])).
      rewrite <- app_assoc. cbn [app]. rewrite app_length. cbn [length]. rewrite Nat.add_1_r. exact H2. }
  apply (G [] pts bp). exact Hid.
Qed.
