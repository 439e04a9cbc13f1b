(** The barycenter of a scan, in double arithmetic. *)

From Coq Require Import ZArith Reals List Lia Lra.
From Flocq Require Import Core BinarySingleNaN.
From Verif Require Import Outcome Arith TypesModel ScanModel SpecStats SumLemmas SpecPose SpecScan SpecOrigin ScanProofs
  B64Tactics B64Lemmas CellB64 SpecMotion64 SpecPlace64 NearB64 NearestB64 PropPlace64 SpecRigid64 PropRigid64.
Import ListNotations.
Local Open Scope R_scope.

Section Sum.
Context {X : Type} (M : R) (HM : usual_size M) (t : X -> b64) (v : X -> R).

(** A running sum of terms known up to rounding, at most 2^40 of them. *)
Lemma running_sum (l : list X) : Forall (fun x => near M (805 / 100) 2 (t x) (v x)) l ->
  forall (a : b64) (done : list X), (Z.of_nat (length done) + Z.of_nat (length l) <= 2 ^ 40)%Z ->
    let n := INR (length done) in let N := INR (length (done ++ l)) in
    is_finite a = true -> Rabs (B2R a - sumf v done) <= (10 * n + 101 / 100 * (n * n)) * (u64 * M) -> Rabs (sumf v done) <= 2 * n * M ->
    let s := fold_left (fun a x => Bplus mode_NE a (t x)) l a in
    is_finite s = true /\ Rabs (B2R s - sumf v (done ++ l)) <= (10 * N + 101 / 100 * (N * N)) * (u64 * M) /\ Rabs (sumf v (done ++ l)) <= 2 * N * M.
Proof.
  induction l as [|x l IH]; intros Hl a done Hn n N Fa Ea Ba s.
  - unfold s, N. cbn [fold_left]. rewrite app_nil_r. fold n. split; [exact Fa|]. split; assumption.
  - inversion Hl as [|? ? (Fx & Ex & Bx) Hl']; subst.
    assert (L1 : length (done ++ [x]) = S (length done)) by (rewrite app_length; cbn; lia).
    assert (E1 : done ++ x :: l = (done ++ [x]) ++ l) by (rewrite <- app_assoc; reflexivity).
    unfold N, s. rewrite E1. cbn [fold_left].
    assert (N1 : INR (length (done ++ [x])) = n + 1) by (rewrite L1, S_INR; reflexivity).
    assert (S1 : sumf v (done ++ [x]) = sumf v done + v x) by (rewrite sumf_app; cbn; lra).
    cbn [length] in Hn.
    assert (n0 : 0 <= n) by apply pos_INR.
    assert (nB : n <= 1099511627776).
    { unfold n. rewrite INR_IZR_INZ. apply (IZR_le _ 1099511627776). lia. }
    pose proof (uM_pos M HM) as U. pose proof (M_pos M HM) as MP. pose proof u64_val as UV. pose proof (eta_M M HM) as EM.
    assert (SM : (10 * n + 101 / 100 * (n * n)) * (u64 * M) <= / 1000 * n * M).
    { replace ((10 * n + 101 / 100 * (n * n)) * (u64 * M)) with ((10 + 101 / 100 * n) * u64 * (n * M)) by ring.
      replace (/ 1000 * n * M) with (/ 1000 * (n * M)) by ring.
      apply Rmult_le_compat_r; [apply Rmult_le_pos; lra|]. rewrite UV. lra. }
    assert (SU : 805 / 100 * (u64 * M) <= / 1000 * M). { pose proof (uM_small M HM). lra. }
    assert (SZ : Rabs (B2R a + B2R (t x)) <= (2 + / 500) * (n + 1) * M).
    { replace (B2R a + B2R (t x)) with ((B2R a - sumf v done) + ((B2R (t x) - v x) + (sumf v done + v x))) by ring.
      eapply Rle_trans; [apply Rabs_triang|]. pose proof (Rabs_triang (B2R (t x) - v x) (sumf v done + v x)). pose proof (Rabs_triang (sumf v done) (v x)).
      assert (0 <= n * M) by (apply Rmult_le_pos; lra). lra. }
    destruct (b64_add_ok a (t x) Fa Fx) as [V F].
    { eapply Rle_trans; [exact SZ|]. apply Rle_trans with (bpow radix2 50 * bpow radix2 400); [|rewrite <- bpow_plus; apply bpow_le; lia].
      apply Rmult_le_compat; [apply Rmult_le_pos; lra|lra|change (bpow radix2 50) with 1125899906842624; lra|apply HM]. }
    assert (RE : Rabs (B2R (Bplus mode_NE a (t x)) - (B2R a + B2R (t x))) <= ((2 + / 500) * (n + 1) + / 1000) * (u64 * M)).
    { rewrite V. eapply Rle_trans; [apply rnd_err|].
      assert (u64 * Rabs (B2R a + B2R (t x)) <= u64 * ((2 + / 500) * (n + 1) * M)) by (apply Rmult_le_compat_l; [pose proof u64_pos; lra|exact SZ]).
      replace (u64 * ((2 + / 500) * (n + 1) * M)) with ((2 + / 500) * (n + 1) * (u64 * M)) in * by ring. lra. }
    apply (IH Hl').
    + rewrite L1. lia.
    + exact F.
    + rewrite N1, S1.
      replace (B2R (Bplus mode_NE a (t x)) - (sumf v done + v x)) with ((B2R (Bplus mode_NE a (t x)) - (B2R a + B2R (t x))) + ((B2R a - sumf v done) + (B2R (t x) - v x))) by ring.
      eapply Rle_trans; [apply Rabs_triang|]. pose proof (Rabs_triang (B2R a - sumf v done) (B2R (t x) - v x)).
      apply Rle_trans with (((2 + / 500) * (n + 1) + / 1000 + (10 * n + 101 / 100 * (n * n)) + 805 / 100) * (u64 * M)); [lra|].
      apply Rmult_le_compat_r; [lra|]. lra.
    + rewrite N1, S1. eapply Rle_trans; [apply Rabs_triang|]. lra.
Qed.

(** The mean of the terms added to a coordinate. *)
Lemma mean_shift (l : list X) (p : b64) (z : b64) : l <> [] -> (Z.of_nat (length l) <= 2 ^ 40)%Z -> upto M p ->
  is_finite z = true -> B2R z = 0 -> Forall (fun x => near M (805 / 100) 2 (t x) (v x)) l ->
  close (bpow radix2 (-52) * (INR (length l) + 8) * M)
    (Bplus mode_NE p (Bdiv mode_NE (fold_left (fun a x => Bplus mode_NE a (t x)) l z) (b64_of (Z.of_nat (length l)) 0)))
    (B2R p + average v l).
Proof.
  intros NE LB [Fp Bp] Fz Vz Hl.
  destruct (running_sum l Hl z []) as (Fs & Es & Bs).
  - cbn. lia.
  - exact Fz.
  - cbn. rewrite Vz, Rminus_0_r, Rabs_R0. lra.
  - cbn. rewrite Rabs_R0. lra.
  - cbn [app] in *. set (s := fold_left (fun a x => Bplus mode_NE a (t x)) l z) in *.
    set (n := INR (length l)) in *.
    assert (n1 : 1 <= n). { unfold n. destruct l; [contradiction|]. cbn [length]. rewrite S_INR. pose proof (pos_INR (length l)). lra. }
    assert (nB : n <= 1099511627776). { unfold n. rewrite INR_IZR_INZ. apply (IZR_le _ 1099511627776). lia. }
    destruct (b64_ofZ (Z.of_nat (length l))) as [Vn Fn]; [lia|]. rewrite <- INR_IZR_INZ in Vn. fold n in Vn.
    pose proof (uM_pos M HM) as U. pose proof (M_pos M HM) as MP. pose proof u64_val as UV. pose proof (eta_M M HM) as EM. pose proof u64_pos as U0.
    assert (In : 0 < / n) by (apply Rinv_0_lt_compat; lra).
    assert (ED : Rabs (B2R s / n - average v l) <= (10 + 101 / 100 * n) * (u64 * M)).
    { unfold average. fold n. replace (B2R s / n - sumf v l / n) with ((B2R s - sumf v l) * / n) by (field; lra).
      rewrite Rabs_mult, (Rabs_pos_eq (/ n)) by lra.
      apply Rle_trans with ((10 * n + 101 / 100 * (n * n)) * (u64 * M) * / n); [apply Rmult_le_compat_r; lra|].
      right. field. lra. }
    assert (AV : Rabs (average v l) <= 2 * M).
    { unfold average. fold n. unfold Rdiv. rewrite Rabs_mult, (Rabs_pos_eq (/ n)) by lra.
      apply Rle_trans with (2 * n * M * / n); [apply Rmult_le_compat_r; lra|]. right. field. lra. }
    assert (SM : (10 + 101 / 100 * n) * (u64 * M) <= / 1000 * M).
    { rewrite <- Rmult_assoc. apply Rmult_le_compat_r; [lra|]. rewrite UV. lra. }
    assert (SZ : Rabs (B2R s / n) <= (2 + / 1000) * M).
    { replace (B2R s / n) with ((B2R s / n - average v l) + average v l) by ring. eapply Rle_trans; [apply Rabs_triang|]. lra. }
    pose proof (big_M M HM) as BM.
    destruct (b64_div_ok s (b64_of (Z.of_nat (length l)) 0) Fs) as [Vq Fq].
    { rewrite Vn. lra. }
    { rewrite Vn. eapply Rle_trans; [exact SZ|]. lra. }
    rewrite Vn in Vq. pose proof (near_rnd M HM (2 + / 1000) _ ltac:(lra) SZ) as Eq. rewrite <- Vq in Eq.
    set (q := Bdiv mode_NE s (b64_of (Z.of_nat (length l)) 0)) in *.
    assert (SQ : Rabs (B2R p + B2R q) <= (3 + / 100) * M).
    { eapply Rle_trans; [apply Rabs_triang|]. replace (B2R q) with ((B2R q - B2R s / n) + B2R s / n) by ring.
      pose proof (Rabs_triang (B2R q - B2R s / n) (B2R s / n)). pose proof (uM_small M HM). lra. }
    destruct (b64_add_ok p q Fp Fq) as [Vr Fr].
    { eapply Rle_trans; [exact SQ|]. lra. }
    pose proof (near_rnd M HM (3 + / 100) _ ltac:(lra) SQ) as Er. rewrite <- Vr in Er.
    split; [exact Fr|].
    replace (B2R (Bplus mode_NE p q) - (B2R p + average v l)) with ((B2R (Bplus mode_NE p q) - (B2R p + B2R q)) + ((B2R q - B2R s / n) + (B2R s / n - average v l))) by ring.
    eapply Rle_trans; [apply Rabs_triang|]. pose proof (Rabs_triang (B2R q - B2R s / n) (B2R s / n - average v l)).
    replace (bpow radix2 (-52)) with (2 * u64) by (unfold u64; change 2 with (bpow radix2 1); rewrite <- bpow_plus; reflexivity).
    apply Rle_trans with ((3 + / 100 + / 1000 + (2 + / 1000 + / 1000) + (10 + 101 / 100 * n)) * (u64 * M)); [lra|].
    replace (2 * u64 * (n + 8) * M) with (2 * (n + 8) * (u64 * M)) by ring. apply Rmult_le_compat_r; lra.
Qed.
End Sum.

Lemma fold_px {T : Type} {A : Arith T} (f g : point T -> T) (l : list (point T)) (a : point T) :
  let r := fold_left (fun (acc : point T) p => mkPoint (px acc + f p)%num (py acc + g p)%num) l a in
  px r = fold_left (fun a p => (a + f p)%num) l (px a) /\ py r = fold_left (fun a p => (a + g p)%num) l (py a).
Proof. revert a. induction l as [|x l IH]; intros a; cbn; [split; reflexivity|]. apply (IH (mkPoint (px a + f x)%num (py a + g x)%num)). Qed.

Lemma average_lin {X : Type} (c s : R) (f g : X -> R) (l : list X) : l <> [] ->
  average (fun x => c * f x + s * g x) l = c * average f l + s * average g l.
Proof.
  intros NE. unfold average. rewrite sumf_plus, !sumf_scal. field. apply not_0_INR. destruct l; [contradiction|discriminate].
Qed.

Lemma bary_cases {T : Type} {A : Arith T} (id : Z) (p o : pose T) (pts : list (point T)) :
  let b := s_bary (scan_update (mkScan id true p o pts)) in
  let c := ncos (poth p) in let sn := nsin (poth p) in let n := nofZ (Z.of_nat (length pts)) in
  (pts = [] -> b = p) /\
  (pts <> [] ->
    pox b = (pox p + fold_left (fun a q => (a + (c * px q - sn * py q))) pts nzero / n)%num /\
    poy b = (poy p + fold_left (fun a q => (a + (sn * px q + c * py q))) pts nzero / n)%num /\ poth b = poth p).
Proof.
  intros b c sn n. split; intros H.
  - unfold b. rewrite H. reflexivity.
  - destruct (fold_px (fun q => c * px q - sn * py q)%num (fun q => sn * px q + c * py q)%num pts point0) as [E1 E2].
    change (px point0) with (nzero (T := T)) in E1. change (py point0) with (nzero (T := T)) in E2. rewrite <- E1, <- E2.
    unfold b, scan_update. cbn [s_pts s_pose s_bary]. destruct pts; [contradiction|]. repeat split; reflexivity.
Qed.

(** After any history of calls. *)
Theorem C134_barycenter (lm : libm) (M : R) (id : Z) (ops : list (scan_op b64)) :
  let p := last_pose ops (origin (A := BA lm)) in
  let pts := last_points ops [] in
  let b := fst (scan_get_bary (A := BA lm) (scan_run (A := BA lm) id ops)) in
  accurate_trig lm -> usual_size M -> pose_upto M p -> Forall (point_upto M) pts -> (Z.of_nat (length pts) <= 2 ^ 40)%Z ->
  (pts = [] -> b = p) /\
  (pts <> [] ->
    let c := act (real_pose p) (mean_point (map real_point pts)) in
    let e := bpow radix2 (-52) * (INR (length pts) + 8) * M in
    close e (pox b) (px c) /\ close e (poy b) (py c) /\ poth b = poth p).
Proof.
  intros p pts b T HM (PX & PY & PT) HQ LB.
  assert (Eb : b = s_bary (scan_update (A := BA lm) (mkScan id true p (pose0 (A := BA lm)) pts))) by (unfold b; rewrite scan_bary_fresh; reflexivity).
  clearbody b p pts. subst b.
  destruct (bary_cases (A := BA lm) id p (pose0 (A := BA lm)) pts) as [B0 B1]. split; [exact B0|].
  intros NE c e. destruct (B1 NE) as (E1 & E2 & E3). rewrite E1, E2, E3. clear B0 B1 E1 E2 E3.
  pose proof (cos_unit lm _ T PT) as HC. pose proof (sin_unit lm _ T PT) as HS.
  set (C := cos (B2R (poth p))) in *. set (S := sin (B2R (poth p))) in *.
  assert (ML : average px (map real_point pts) = average (fun q : point b64 => B2R (px q)) pts /\ average py (map real_point pts) = average (fun q : point b64 => B2R (py q)) pts).
  { unfold average. rewrite !sumf_map, !map_length. split; reflexivity. }
  split; [|split; [|reflexivity]].
  - replace (px c) with (B2R (pox p) + average (fun q : point b64 => C * B2R (px q) + (- S) * B2R (py q)) pts).
    2: { unfold c, act, mean_point, real_pose. cbn [px py pox poy poth]. rewrite (proj1 ML), (proj2 ML). fold C S. rewrite average_lin by exact NE. ring. }
    apply (mean_shift M HM (fun q : point b64 => Bminus mode_NE (Bmult mode_NE (lm_cos lm (poth p)) (px q)) (Bmult mode_NE (lm_sin lm (poth p)) (py q)))
      (fun q : point b64 => C * B2R (px q) + (- S) * B2R (py q)) pts (pox p) (nzero (A := BA lm)) NE LB PX); [reflexivity|reflexivity|].
    eapply Forall_impl; [|exact HQ]. intros q (QX & QY). pose proof (near_upto M _ QX) as NX. pose proof (near_upto M _ QY) as NY.
    pose proof (near_mul M HM 0 1 _ _ _ _ ltac:(lra) ltac:(lra) HC NX) as m1. pose proof (near_mul M HM 0 1 _ _ _ _ ltac:(lra) ltac:(lra) HS NY) as m2.
    near_op near_sub M HM m1 m2 nx1. replace (C * B2R (px q) + - S * B2R (py q)) with (C * B2R (px q) - S * B2R (py q)) by ring.
    eapply near_weaken; [exact HM| | |exact nx1]; lra.
  - replace (py c) with (B2R (poy p) + average (fun q : point b64 => S * B2R (px q) + C * B2R (py q)) pts).
    2: { unfold c, act, mean_point, real_pose. cbn [px py pox poy poth]. rewrite (proj1 ML), (proj2 ML). fold C S. rewrite average_lin by exact NE. ring. }
    apply (mean_shift M HM (fun q : point b64 => Bplus mode_NE (Bmult mode_NE (lm_sin lm (poth p)) (px q)) (Bmult mode_NE (lm_cos lm (poth p)) (py q)))
      (fun q : point b64 => S * B2R (px q) + C * B2R (py q)) pts (poy p) (nzero (A := BA lm)) NE LB PY); [reflexivity|reflexivity|].
    eapply Forall_impl; [|exact HQ]. intros q (QX & QY). pose proof (near_upto M _ QX) as NX. pose proof (near_upto M _ QY) as NY.
    pose proof (near_mul M HM 0 1 _ _ _ _ ltac:(lra) ltac:(lra) HS NX) as m1. pose proof (near_mul M HM 0 1 _ _ _ _ ltac:(lra) ltac:(lra) HC NY) as m2.
    near_op near_add M HM m1 m2 nx1. eapply near_weaken; [exact HM| | |exact nx1]; lra.
Qed.
Print Assumptions C134_barycenter.

Example C134_nonvacuous (lm : libm) : let ops := [SSetPose place_pose; SGetBary; SSetPoints [place_point; place_point]] in
  accurate_trig (with_nearest lm) /\ usual_size 8 /\ pose_upto 8 (last_pose ops (origin (A := BA lm))) /\
  Forall (point_upto 8) (last_points ops []) /\ last_points ops [] <> [].
Proof.
  cbv zeta. cbn [last_pose last_points]. split; [apply nearest_accurate|]. split; [apply size8|].
  split; [repeat split; try reflexivity; apply b64_of_small; lia|]. split; [|discriminate].
  constructor; [|constructor; [|constructor]]; split; apply b64_of_small; lia.
Qed.
