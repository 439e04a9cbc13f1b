(** Scan matcher in binary64: not-a-number results, finite scores, loops. *)

From Coq Require Import ZArith Reals List Bool Lia Lra Psatz.
From Flocq Require Import Core BinarySingleNaN.
From Verif Require Import Outcome Arith TypesModel CellModel ScanModel NdtModel MatcherModel
  B64Tactics B64Lemmas NdtProofs MatcherProofs MatcherB64.
Import ListNotations.
Local Open Scope R_scope.

Section B.
Context (lm : libm).
Let A : Arith b64 := BA lm.
Existing Instance A.

Lemma foldM_total {S X} (f : S -> X -> outcome S) (xs : list X) :
  (forall s x, In x xs -> exists s', f s x = Ok s') -> forall s, exists s', foldM f s xs = Ok s'.
Proof.
  induction xs as [|x xs IH]; intros H s; cbn [foldM]; [eexists; reflexivity|].
  destruct (H s x (or_introl eq_refl)) as (s1 & ->). cbn [bind].
  apply IH. intros s' y Hy. apply H. right. exact Hy.
Qed.

(** An invariant of the candidate loop. *)
Lemma match_scan_inv (I : mstate b64 -> Prop) (fuel : nat) (m : matcher b64) (g : ndt b64) (s : scan b64)
  (p p' : pose b64) (cov cov' : mat3 b64) (r : b64) :
  k_ndt m = Some g ->
  I (mkMstate nzero p mat3_zero vec3_zero nzero) ->
  (forall bp dth dx w dy w', beam_points m (s_pts s) = Ok bp -> I w ->
     match_step g (outer_points (s_pose s) dth bp) dth dx w dy = Ok w' -> I w') ->
  match_scan fuel m s p cov = Ok (r, p', cov') ->
  exists w, I w /\ r = ndiv (w_best w) (nofZ (beams_used m (s_pts s))) /\ p' = w_pose w /\ cov' = match_covariance w.
Proof.
  intros Hg H0 Hstep H. unfold match_scan in H. rewrite Hg in H.
  apply bind_ok in H. destruct H as (dths & Hth & H).
  apply bind_ok in H. destruct H as (ds & Hds & H).
  apply bind_ok in H. destruct H as (w & Hw & H). injection H as <- <- <-.
  exists w. split; [|repeat split].
  refine (foldM_inv I _ _ _ _ _ H0 Hw). intros w0 dth w1 I0 _ H1.
  apply bind_ok in H1. destruct H1 as (bp & Hbp & H1). cbv zeta in H1.
  refine (foldM_inv I _ _ _ _ _ I0 H1). intros w2 dx w3 I2 _ H3.
  refine (foldM_inv I _ _ _ _ _ I2 H3). intros w4 dy w5 I4 _ H5.
  eapply Hstep; eauto.
Qed.

(** * Empty scan *)

Lemma neg_zero_not_less : nlt (nopp (@nzero b64 A)) nzero = false.
Proof. vm_compute. reflexivity. Qed.


Lemma empty_scan_nan (fuel : nat) (m : matcher b64) (g : ndt b64) (s : scan b64) (p p' : pose b64) (cov cov' : mat3 b64) (r : b64) :
  k_ndt m = Some g -> (0 <= k_beams m)%Z -> s_pts s = [] ->
  match_scan fuel m s p cov = Ok (r, p', cov') -> r = b64_nan.
Proof.
  intros Hg Hb Hp H.
  destruct (match_scan_inv (fun w => w_best w = nzero) fuel m g s p p' cov cov' r Hg) as (w & Hw & -> & _); [reflexivity| |exact H|].
  - intros bp dth dx w dy w' Hbp Hw Hs. rewrite Hp in Hbp.
    assert (bp = []).
    { apply beam_points_length in Hbp. unfold beams_used in Hbp. cbn [length] in Hbp.
      rewrite Z.min_r in Hbp by lia. destruct bp; [reflexivity|discriminate]. }
    subst bp. unfold match_step in Hs. cbn [outer_points inner_points map ndt_likelihood_points foldM bind] in Hs.
    injection Hs as <-. cbn [w_best]. rewrite Hw.
    destruct (Bltb (B754_zero true) nzero) eqn:E; [vm_compute in E; discriminate|reflexivity].
  - rewrite Hw, Hp. unfold beams_used. cbn [length]. rewrite Z.min_r by lia. b64_compute.
Qed.

(** matchScan does return for an empty scan. *)
Lemma empty_scan_returns (fuel : nat) (m : matcher b64) (g : ndt b64) (s : scan b64) (p : pose b64) (cov : mat3 b64) :
  k_ndt m = Some g -> (0 <= k_beams m)%Z -> s_pts s = [] ->
  is_ok (loop_values fuel (nopp (k_ang_size m)) (k_ang_size m) (k_ang_res m)) = true ->
  is_ok (loop_values fuel (nopp (k_lin_size m)) (k_lin_size m) (k_lin_res m)) = true ->
  exists r p' cov', match_scan fuel m s p cov = Ok (r, p', cov').
Proof.
  intros Hg Hb Hp Ha Hl. unfold match_scan. rewrite Hg.
  destruct (loop_values fuel (nopp (k_ang_size m)) (k_ang_size m) (k_ang_res m)) as [dths|]; [|discriminate].
  destruct (loop_values fuel (nopp (k_lin_size m)) (k_lin_size m) (k_lin_res m)) as [ds|]; [|discriminate].
  cbn [bind].
  assert (Hbp : beam_points m (s_pts s) = Ok []).
  { rewrite Hp. unfold beam_points, beams_used. cbn [length]. rewrite Z.min_r by lia. reflexivity. }
  rewrite Hbp. cbn [bind].
  edestruct (foldM_total (fun w dth => let outer := outer_points (s_pose s) dth [] in
        foldM (fun w dx => foldM (match_step g outer dth dx) w ds) w ds) dths) as (w & Hw).
  { intros w dth _. cbv zeta. apply foldM_total. intros w1 dx _. apply foldM_total. intros w2 dy _.
    eexists. unfold match_step. cbn [outer_points inner_points map ndt_likelihood_points foldM bind]. reflexivity. }
  rewrite Hw. cbn [bind]. do 3 eexists. reflexivity.
Qed.

(** * A scan that hits no scoring cell *)

Definition zero_or_nan (x : b64) : Prop := x = B754_zero false \/ x = B754_nan.

Lemma add_neg_zero (a x : b64) : zero_or_nan a -> zero_or_nan (Bplus mode_NE a (Bmult mode_NE x (B754_zero true))).
Proof.
  intros [->| ->].
  - destruct x as [[]|[]| |[] mm ee Hb]; cbn; first [left; reflexivity|right; reflexivity].
  - right. destruct (Bmult mode_NE x (B754_zero true)) as [[]|[]| |[] ? ? ?]; reflexivity.
Qed.

Lemma zero_scores_nan_covariance (fuel : nat) (m : matcher b64) (g : ndt b64) (s : scan b64) (p p' : pose b64) (cov cov' : mat3 b64) (r : b64) :
  k_ndt m = Some g ->
  (forall pts v, ndt_likelihood_points g pts = Ok v -> v = nzero) ->
  match_scan fuel m s p cov = Ok (r, p', cov') ->
  a00 cov' = b64_nan /\ a11 cov' = b64_nan /\ a22 cov' = b64_nan.
Proof.
  intros Hg Hz H.
  destruct (match_scan_inv (fun w => w_s w = B754_zero false /\ zero_or_nan (a00 (w_k w)) /\ zero_or_nan (a11 (w_k w)) /\ zero_or_nan (a22 (w_k w)))
              fuel m g s p p' cov cov' r Hg) as (w & (Hs & H0 & H1 & H2) & _ & _ & ->); [| |exact H|].
  - cbn. repeat split; left; b64_compute.
  - intros bp dth dx w dy w' Hbp (Hs & H0 & H1 & H2) Hst. unfold match_step in Hst.
    apply bind_ok in Hst. destruct Hst as (lk & Hlk & Hst). apply Hz in Hlk. subst lk. injection Hst as <-. cbn [w_s w_k].
    split; [rewrite Hs; b64_compute|].
    unfold mat3_add, mat3_map2, mat3_scale, outer3. cbn [a00 a11 a22].
    repeat split; apply add_neg_zero; assumption.
  - unfold match_covariance, mat3_add, mat3_map2, mat3_scale. cbn [a00 a11 a22]. rewrite Hs.
    assert (E : ndiv (@none_ b64 A) (B754_zero false) = B754_infinity false) by b64_compute. rewrite E.
    assert (K : forall x y, zero_or_nan x -> nadd (nmul x (B754_infinity false)) y = b64_nan).
    { intros x y [->| ->]; reflexivity. }
    repeat split; apply K; assumption.
Qed.

(** A map none of whose cells scores. *)
Lemma silent_map (g : ndt b64) :
  (forall c q, In c (g_cells g) -> cell_score c q = nzero) ->
  forall pts v, ndt_likelihood_points g pts = Ok v -> v = nzero.
Proof.
  intros Hc pts v H. unfold ndt_likelihood_points in H.
  set (z := @nzero b64 A) in *.
  assert (Ez : nadd z z = z) by (unfold z; b64_compute).
  set (f := fun (score : b64) (p : point b64) => bind (ndt_likelihood g p) (fun l => Ok (nadd score l))) in H.
  assert (Hf : forall s x s', s = z -> In x pts -> f s x = Ok s' -> s' = z); [|exact (foldM_inv (fun v => v = z) f pts Hf z v eq_refl H)].
  clear H. unfold f. clear f.
  intros acc q acc' -> _ H1. apply bind_ok in H1. destruct H1 as (l & Hl & H1). injection H1 as <-.
  assert (l = z) as ->; [|exact Ez].
  unfold ndt_likelihood in Hl. apply bind_ok in Hl. destruct Hl as (i & Hi & Hl).
  destruct (0 <=? i)%Z; [|injection Hl as <-; reflexivity].
  apply bind_ok in Hl. destruct Hl as (c & Hcc & Hl). injection Hl as <-.
  apply Hc. apply vec_get_inv in Hcc. destruct Hcc as [_ Hcc]. apply nth_error_In in Hcc. exact Hcc.
Qed.

(** * Finite, normalised scores *)

(** The map only hands out finite likelihoods in [0, 1]. *)
Definition unit_likelihoods (g : ndt b64) : Prop :=
  forall q v, ndt_likelihood g q = Ok v -> is_finite v = true /\ 0 <= B2R v <= 1.

Lemma likelihood_points_b64 (g : ndt b64) (pts : list (point b64)) :
  unit_likelihoods g -> (Z.of_nat (length pts) <= 2 ^ 52)%Z ->
  forall v, ndt_likelihood_points g pts = Ok v -> is_finite v = true /\ 0 <= B2R v <= IZR (Z.of_nat (length pts)).
Proof.
  intros Hu Hl.
  assert (G : forall (pts : list (point b64)) (k : Z) (acc v : b64), (0 <= k)%Z -> (k + Z.of_nat (length pts) <= 2 ^ 52)%Z ->
    is_finite acc = true -> 0 <= B2R acc <= IZR k ->
    foldM (fun score p => bind (ndt_likelihood g p) (fun l => Ok (nadd score l))) acc pts = Ok v ->
    is_finite v = true /\ 0 <= B2R v <= IZR (k + Z.of_nat (length pts))).
  { clear pts Hl. induction pts as [|q pts IH]; intros k acc v Hk Hl Hf Hb H; cbn [foldM] in H.
    - injection H as <-. cbn [length]. rewrite Z.add_0_r. split; assumption.
    - apply bind_ok in H. destruct H as (acc1 & H1 & H). apply bind_ok in H1. destruct H1 as (l & Hlk & H1).
      injection H1 as <-. destruct (Hu q l Hlk) as [Fl Bl].
      cbn [length] in Hl. rewrite Nat2Z.inj_succ in Hl.
      assert (Hkb : IZR (k + 1) <= bpow radix2 1023).
      { eapply Rle_trans; [apply Rle_abs|]. apply IZR_bpow1023. lia. }
      rewrite plus_IZR in Hkb.
      destruct (b64_add_ok acc l Hf Fl) as [Ea Fa].
      { rewrite Rabs_pos_eq by lra. lra. }
      replace (k + Z.of_nat (length (q :: pts)))%Z with (k + 1 + Z.of_nat (length pts))%Z by (cbn [length]; lia).
      apply (IH (k + 1)%Z (Bplus mode_NE acc l) v); try assumption; try lia.
      rewrite Ea. split.
      + apply rnd_lb; [apply (fmt_int 0); cbn; lia|]. lra.
      + apply rnd_ub; [apply fmt_int; lia|]. rewrite plus_IZR. lra. }
  intros v H. destruct (b64_ofZ 0 ltac:(cbn; lia)) as [E0 F0].
  destruct (G pts 0%Z (b64_of 0 0) v ltac:(lia) ltac:(lia) F0) as [Hf Hb]; [|exact H|].
  - rewrite E0. lra.
  - rewrite Z.add_0_l in Hb. split; assumption.
Qed.

Lemma score_finite (fuel : nat) (m : matcher b64) (g : ndt b64) (s : scan b64) (p p' : pose b64) (cov cov' : mat3 b64) (r : b64) :
  k_ndt m = Some g -> unit_likelihoods g -> (1 <= k_beams m)%Z -> s_pts s <> [] -> (Z.of_nat (length (s_pts s)) <= 2 ^ 52)%Z ->
  match_scan fuel m s p cov = Ok (r, p', cov') ->
  is_finite r = true /\ -1 <= B2R r <= 0.
Proof.
  intros Hg Hu Hb Hp Hl H.
  set (u := beams_used m (s_pts s)).
  assert (Hu1 : (1 <= u <= 2 ^ 52)%Z).
  { unfold u, beams_used. destruct (s_pts s); [congruence|]. cbn [length] in *. lia. }
  destruct (b64_ofZ 0 ltac:(cbn; lia)) as [E0 F0].
  destruct (match_scan_inv (fun w => is_finite (w_best w) = true /\ - IZR u <= B2R (w_best w) <= 0)
              fuel m g s p p' cov cov' r Hg) as (w & (Fw & Bw) & -> & _); [| |exact H|].
  - cbn [w_best]. split; [exact F0|]. unfold nzero. cbn [nofZ A BA]. rewrite E0.
    assert (1 <= IZR u) by (apply IZR_le; lia). lra.
  - intros bp dth dx w dy w' Hbp (Fw & Bw) Hst. unfold match_step in Hst.
    apply bind_ok in Hst. destruct Hst as (lk & Hlk & Hst). injection Hst as <-. cbn [w_best].
    assert (Hlen : Z.of_nat (length (inner_points dx dy (outer_points (s_pose s) dth bp))) = u).
    { unfold inner_points, outer_points. rewrite !map_length, (beam_points_length _ _ _ Hbp). fold u. lia. }
    assert (HL : (Z.of_nat (length (inner_points dx dy (outer_points (s_pose s) dth bp))) <= 2 ^ 52)%Z) by (rewrite Hlen; lia).
    destruct (likelihood_points_b64 g _ Hu HL lk Hlk) as [Fl Bl]. rewrite Hlen in Bl.
    match goal with |- context [if ?b then _ else _] => destruct b end; [|split; assumption].
    cbn [nopp A BA]. rewrite is_finite_Bopp, B2R_Bopp. split; [exact Fl|lra].
  - destruct (b64_ofZ u ltac:(lia)) as [Eu Fu].
    assert (U1 : 1 <= IZR u) by (apply IZR_le; lia).
    assert (Hq : -1 <= B2R (w_best w) / IZR u <= 0).
    { assert (Hi : 0 < / IZR u) by (apply Rinv_0_lt_compat; lra).
      assert (IZR u * / IZR u = 1) by (apply Rinv_r; lra). unfold Rdiv. split; nra. }
    destruct (b64_div_ok (w_best w) (b64_of u 0)) as [Ed Fd]; [exact Fw|rewrite Eu; lra| |].
    { rewrite Eu. apply Rle_trans with 1; [apply Rabs_le; lra|].
      apply (bpow_le radix2 0 1023). lia. }
    cbn [ndiv nofZ A BA]. fold u. split; [exact Fd|]. rewrite Ed, Eu. split.
    + apply rnd_lb; [apply (fmt_int (-1)); cbn; lia|]. lra.
    + apply rnd_ub; [apply (fmt_int 0); cbn; lia|]. lra.
Qed.

(** * Termination of the loops *)

Lemma loop_step_progress (size res d : R) :
  0 < res -> bpow radix2 (-1074) <= res -> size * bpow radix2 (-51) <= res -> - size <= d < size ->
  d + res / 2 <= rnd (d + res).
Proof.
  intros Hr Hsub Hres Hd.
  pose proof (rnd_error (d + res)) as He. apply Rabs_le_inv in He.
  assert (Hm : Rmax (bpow radix2 (-1075)) (bpow radix2 (-53) * Rabs (d + res)) <= res / 2); [|lra].
  apply Rmax_lub.
  - replace (-1074)%Z with (1 + -1075)%Z in Hsub by lia. rewrite bpow_plus in Hsub. change (bpow radix2 1) with 2 in Hsub. lra.
  - assert (Hab : Rabs (d + res) <= size + res) by (apply Rabs_le; lra).
    assert (B : 0 < bpow radix2 (-53)) by apply bpow_gt_0.
    assert (E51 : bpow radix2 (-51) = 4 * bpow radix2 (-53)) by (replace (-51)%Z with (2 + -53)%Z by lia; rewrite bpow_plus; reflexivity).
    assert (B1 : bpow radix2 (-53) <= / 8) by (apply (bpow_le radix2 (-53) (-3)); lia).
    rewrite E51 in Hres.
    assert (bpow radix2 (-53) * Rabs (d + res) <= bpow radix2 (-53) * (size + res)) by (apply Rmult_le_compat_l; lra).
    nra.
Qed.

Lemma loop_values_b64 (size res : b64) (n : nat) :
  is_finite size = true -> is_finite res = true -> 0 < B2R res -> B2R size * bpow radix2 (-51) <= B2R res ->
  Rabs (B2R size) <= bpow radix2 1000 -> B2R res <= bpow radix2 1000 ->
  forall d, is_finite d = true -> - B2R size <= B2R d -> B2R size <= B2R d + INR n * (B2R res / 2) ->
  forall fuel, (n < fuel)%nat -> exists l, loop_values fuel d size res = Ok l.
Proof.
  intros Fs Fr Hr Hrel Bs Br.
  assert (Hsub : bpow radix2 (-1074) <= B2R res).
  { pose proof (abs_B2R_ge_emin _ _ res) as He || idtac.
    apply Rnot_lt_le. intros Hlt.
    assert (E : rnd (B2R res) = B2R res) by (apply rnd_fmt; apply fmt_b64).
    pose proof (fmt_b64 res) as Ff. unfold fmt, generic_format in Ff.
    apply Rlt_not_le in Hlt. apply Hlt.
    apply (generic_format_ge_bpow radix2 fexp64 (-1074)); [|exact Hr|apply fmt_b64].
    intros e. rewrite fexp64_FLT. unfold FLT_exp. lia. }
  apply Rabs_le_inv in Bs.
  induction n as [|n IH]; intros d Fd Hd Hb fuel Hf.
  - destruct fuel as [|f]; [lia|]. cbn [loop_values nlt A BA]. cbn in Hb.
    rewrite Bltb_correct by assumption. rewrite Rlt_bool_false by lra. eexists; reflexivity.
  - destruct fuel as [|f]; [lia|]. cbn [loop_values nlt nadd A BA].
    rewrite Bltb_correct by assumption. destruct (Rlt_bool_spec (B2R d) (B2R size)) as [Hlt|Hge]; [|eexists; reflexivity].
    assert (B1 : 2 * bpow radix2 1000 <= bpow radix2 1023).
    { change 2 with (bpow radix2 1). rewrite <- bpow_plus. apply bpow_le. lia. }
    destruct (b64_add_ok d res Fd Fr) as [Ea Fa]; [apply Rabs_le; lra|].
    pose proof (loop_step_progress (B2R size) (B2R res) (B2R d) Hr Hsub Hrel (conj Hd Hlt)) as Hp.
    rewrite <- Ea in Hp. rewrite S_INR in Hb.
    destruct (IH (Bplus mode_NE d res)) with (fuel := f) as [l Hl]; [exact Fa|lra|lra|lia|].
    rewrite Hl. eexists; reflexivity.
Qed.

Lemma search_terminates_b64 (size res : b64) :
  is_finite size = true -> is_finite res = true -> 0 < B2R res -> B2R size * bpow radix2 (-51) <= B2R res ->
  Rabs (B2R size) <= bpow radix2 1000 -> B2R res <= bpow radix2 1000 ->
  exists n l, forall fuel, (n < fuel)%nat -> loop_values fuel (nopp size) size res = Ok l.
Proof.
  intros Fs Fr Hr Hrel Bs Br.
  set (n := Z.to_nat (up (4 * B2R size / B2R res))).
  destruct (loop_values_b64 size res n Fs Fr Hr Hrel Bs Br (Bopp size)) with (fuel := S n) as [l Hl].
  - rewrite is_finite_Bopp. exact Fs.
  - rewrite B2R_Bopp. lra.
  - rewrite B2R_Bopp. pose proof (archimed (4 * B2R size / B2R res)) as [Hup _].
    assert (IZR (up (4 * B2R size / B2R res)) <= INR n) by (rewrite INR_IZR_INZ; apply IZR_le; lia).
    assert (E : 4 * B2R size / B2R res * B2R res = 4 * B2R size) by (field; lra).
    assert (4 * B2R size / B2R res * B2R res <= INR n * B2R res) by (apply Rmult_le_compat_r; lra). lra.
  - lia.
  - exists n, l. intros fuel Hf.
    assert (Mono : forall f d l, loop_values f d size res = Ok l -> forall f', (f <= f')%nat -> loop_values f' d size res = Ok l).
    { induction f as [|f IH]; intros d l0 H f' Hf'; [discriminate|].
      destruct f' as [|f']; [lia|]. cbn [loop_values] in *. destruct (nlt d size); [|exact H].
      apply bind_ok in H. destruct H as (ds & Hds & H). rewrite (IH _ _ Hds f') by lia. exact H. }
    apply (Mono (S n)); [exact Hl|lia].
Qed.

(** A tiny resolution stalls the loop counter: the search never ends. *)
Lemma search_stalls (fuel : nat) :
  loop_values fuel (nopp (b64_of 1 0)) (b64_of 1 0) (b64_of 1 (-60)) = Fault OutOfFuel.
Proof.
  assert (G : forall fuel, loop_values fuel (b64_of (-1) 0) (b64_of 1 0) (b64_of 1 (-60)) = Fault OutOfFuel).
  { induction fuel0 as [|f IH]; [reflexivity|]. cbn [loop_values].
    replace (nlt (b64_of (-1) 0) (b64_of 1 0)) with true by (vm_compute; reflexivity).
    replace (nadd (b64_of (-1) 0) (b64_of 1 (-60))) with (b64_of (-1) 0) by b64_compute.
    rewrite IH. reflexivity. }
  replace (nopp (b64_of 1 0)) with (b64_of (-1) 0) by b64_compute. apply G.
Qed.

(** An empty range of scans makes the map size negative: the conversion to an
    unsigned size is undefined, with the default parameters. *)
Lemma add_no_scans (eig : mat2 b64 -> b64 * b64) (range : b64) :
  add_scans eig (matcher_default range) [] = Fault BadCast.
Proof.
  unfold add_scans, scans_box. cbn [fold_left]. unfold ndt_new, cast_unsigned.
  match goal with |- context [ntrunc ?x] => assert (E : ntrunc x = None) by (vm_compute; reflexivity) end.
  rewrite E. reflexivity.
Qed.

(** Default parameters. *)
Definition default_linear : outcome (list b64) :=
  loop_values 100 (nopp (k_lin_size (matcher_default nzero))) (k_lin_size (matcher_default nzero)) (k_lin_res (matcher_default nzero)).
Definition default_angular : outcome (list b64) :=
  loop_values 100 (nopp (k_ang_size (matcher_default nzero))) (k_ang_size (matcher_default nzero)) (k_ang_res (matcher_default nzero)).

Definition check_loop (o : outcome (list b64)) (n : nat) (zeros : nat) : bool :=
  match o with
  | Ok l => Nat.eqb (length l) n && Nat.eqb (length (filter (fun d => neqb d nzero) l)) zeros
  | Fault _ => false
  end.

Lemma default_loops : check_loop default_linear 21 0 = true /\ check_loop default_angular 80 0 = true.
Proof. split; vm_compute; reflexivity. Qed.

Lemma check_loop_spec (o : outcome (list b64)) (n : nat) :
  check_loop o n 0 = true -> exists l, o = Ok l /\ length l = n /\ forall d, In d l -> neqb d nzero = false.
Proof.
  unfold check_loop. destruct o as [l|f]; [|discriminate]. intros H. apply andb_prop in H. destruct H as [H1 H2].
  apply Nat.eqb_eq in H1, H2. exists l. split; [reflexivity|]. split; [exact H1|].
  intros d Hd. destruct (neqb d nzero) eqn:E; [|reflexivity].
  assert (Hf : In d (filter (fun d => neqb d nzero) l)) by (apply filter_In; auto).
  destruct (filter (fun d => neqb d nzero) l); [destruct Hf|discriminate].
Qed.

(** The values of the loop, in every arithmetic: start, start + res, ... and all below the bound. *)
Lemma loop_values_bound (size res : b64) (fuel : nat) :
  forall d l, loop_values fuel d size res = Ok l ->
  (forall x, In x l -> nlt x size = true) /\ (l = [] \/ hd_error l = Some d).
Proof.
  induction fuel as [|f IH]; intros d l H; cbn [loop_values] in H; [discriminate|].
  destruct (nlt d size) eqn:E; [|injection H as <-; split; [intros x []|left; reflexivity]].
  apply bind_ok in H. destruct H as (ds & Hds & H). injection H as <-.
  destruct (IH _ _ Hds) as [Hall _]. split; [|right; reflexivity].
  intros x [<-|Hx]; [exact E|apply Hall; exact Hx].
Qed.

End B.
