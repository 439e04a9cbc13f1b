(** The typical response in exact and in binary64 arithmetic (C72); the
    constraints between consecutive scans in exact arithmetic (C79). *)

From Coq Require Import ZArith Reals List Bool String Lia Lra Psatz.
From Flocq Require Import Core BinarySingleNaN.
From Verif Require Import Outcome Arith TypesModel ScanModel CellModel NdtModel MatcherModel ConstraintModel
  SolverModel GraphModel OccGridModel MotionModel FilterModel LaserModel MapperModel SpecPose SpecStats SpecGrid SpecLaser SpecMapper SpecMapper2 SpecMapper3
  RTactics B64Tactics B64Lemmas NdtProofs NdtProofs2 MatcherProofs MatcherProofs2 MatcherWitness CellProofs2 CellProofs ConstraintProofs LaserProofs
  GraphProofs MapperProofs MapperSteps MapperInv1 MapperInv2 MapperInv3 MapperInv5 MapperInv7.
Import ListNotations.
Local Open Scope R_scope.

(** ** Exact arithmetic *)
Definition local_from {T} {A : Arith T} (cf : config T) (m : mapper T) : Prop :=
  forall k, sp_local (mp_spin m) = Some k -> exists r, matcher_reset k = matcher_reset (en_local cf r).

Lemma local_step {T} {A : Arith T} : forall (cf : config T) l m m', local_from cf m -> step_tr cf m l m' -> local_from cf m'.
Proof.
  intros cf l m m' I H. unfold local_from in *. destruct H as [e s' sp' Id D|s' sp' D|s' l' D|s' p' D]; cbn [mp_spin] in *; try exact I.
  - destruct D; try exact I.
    + match goal with L : learns _ _ _ _ _ |- _ => destruct L as [E1 E2 E3|r g0 E1 E2 E3 E4] end; rewrite E3; [exact I|].
      intros k E. injection E as <-. exists r. reflexivity.
    + match goal with L : learns _ _ _ _ _ |- _ => destruct L as [E1 E2 E3|r g0 E1 E2 E3 E4] end; rewrite E3; [exact I|].
      intros k E. injection E as <-. exists r. reflexivity.
  - destruct D; try exact I. intros k E. cbn in E. injection E as <-.
    match goal with K : add_scans _ _ _ = Ok _ |- _ => apply add_scans_run in K; cbv zeta in K; destruct K as (g0 & g & _ & _ & ->) end.
    match goal with K : sp_local _ = Some ?k |- _ => destruct (I k K) as [r E] end. exists r. rewrite <- E. reflexivity.
Qed.

Lemma local_reach {T} {A : Arith T} : forall (cf : config T) ok m, reach_if cf ok m -> local_from cf m.
Proof.
  intros cf ok m R. induction R as [m I|m l m' R IH G S].
  - unfold mapper_init in I. apply bind_ok in I. destruct I as (f & F & I). injection I as <-. intros k E. discriminate E.
  - apply step_cases in S. apply (local_step cf l m m' IH S).
Qed.

Lemma local_reachable {T} {A : Arith T} : forall (cf : config T) m, reachable cf m -> local_from cf m.
Proof.
  intros cf. apply reachable_inv; [|intros l m m' I H; apply (local_step cf l m m'); assumption].
  intros m I. unfold mapper_init in I. apply bind_ok in I. destruct I as (f & F & I). injection I as <-. intros k E. discriminate E.
Qed.

Lemma smooth_range_R : forall t x : R, -1 <= t <= 0 -> -1 <= x <= 0 -> -1 <= smooth_response t x <= 0.
Proof. intros t x Ht Hx. unfold smooth_response. ra. lra. Qed.

Lemma typical_range_R : forall cf : config R, eigen_contract (en_eig cf) -> (forall r, usable_matcher (en_local cf r)) ->
  forall m, reach_if cf (measurable cf) m -> -1 <= sh_typical (mp_sh m) <= 0.
Proof.
  intros cf He Hu m R. apply (typical_reach cf (fun t => -1 <= t <= 0) (fun t => -1 <= t <= 0)).
  - ra. lra.
  - exact smooth_range_R.
  - induction R as [m I|m l m' R IH G S]; [apply reach_init; exact I|].
    apply (reach_step cf _ m l m'); [exact IH| |exact S].
    intros -> p odom sc scans w k k' score corr cov K1 K2 K3 K4 K5 K6 K7.
    destruct (local_reach cf _ m R k K5) as [r Er]. destruct (Hu r) as (U1 & U2 & U3 & U4).
    assert (Eres : k_resolution k = k_resolution (en_local cf r) /\ k_ang_res k = k_ang_res (en_local cf r) /\ k_lin_res k = k_lin_res (en_local cf r) /\ k_beams k = k_beams (en_local cf r)).
    { unfold matcher_reset, with_ndt in Er. injection Er as F1 F2 F3 F4 F5 F6 F7. repeat split; assumption. }
    destruct Eres as (F1 & F2 & F3 & F4). rewrite <- F1 in U1. rewrite <- F2 in U2. rewrite <- F3 in U3. rewrite <- F4 in U4.
    pose proof K6 as K6'. apply add_scans_run in K6'. cbv zeta in K6'. destruct K6' as (g0 & g & _ & _ & Ek).
    assert (Hg : k_ndt k' = Some g) by (rewrite Ek; reflexivity).
    destruct (G eq_refl p odom sc scans w k k' g K1 K2 K3 K4 K5 K6 Hg) as (G1 & G2 & G3).
    destruct (scores_normalised (en_eig cf) (matcher_reset k) k' g w He U1 K6 Hg G2 G3 U4) as (_ & _ & N).
    apply (N (en_fuel cf) sc pose0 (en_garbage cf) score corr cov U2 U3 G1 K7).
Qed.

(** ** Binary64 *)
Lemma smooth_range_b64 : forall (lm : libm) (t x : b64),
  is_finite t = true /\ -1 <= B2R t <= 0 -> is_finite x = true /\ -1 <= B2R x <= 0 ->
  is_finite (smooth_response (A := BA lm) t x) = true /\ -1 <= B2R (smooth_response (A := BA lm) t x) <= 0.
Proof.
  intros lm t x [Ft Bt] [Fx Bx].
  change (smooth_response (A := BA lm) t x) with
    (Bplus mode_NE (Bmult mode_NE (Bdiv mode_NE (b64_of 95 0) (b64_of 100 0)) t) (Bmult mode_NE (Bdiv mode_NE (b64_of 5 0) (b64_of 100 0)) x)).
  set (a := Bdiv mode_NE (b64_of 95 0) (b64_of 100 0)). set (b := Bdiv mode_NE (b64_of 5 0) (b64_of 100 0)).
  assert (Fa : is_finite a = true) by (vm_compute; reflexivity). assert (Fb : is_finite b = true) by (vm_compute; reflexivity).
  assert (Va : B2R a = IZR 8556839292003942 / IZR (2 ^ 53)).
  { rewrite <- (SF2R_B2SF 53 1024 a). replace (B2SF a) with (SpecFloat.S754_finite false 8556839292003942 (-53)) by (vm_compute; reflexivity).
    cbn [SF2R cond_Zopp]. unfold F2R. cbn [Fnum Fexp]. unfold Rdiv. f_equal. }
  assert (Vb : B2R b = IZR 7205759403792794 / IZR (2 ^ 57)).
  { rewrite <- (SF2R_B2SF 53 1024 b). replace (B2SF b) with (SpecFloat.S754_finite false 7205759403792794 (-57)) by (vm_compute; reflexivity).
    cbn [SF2R cond_Zopp]. unfold F2R. cbn [Fnum Fexp]. unfold Rdiv. f_equal. }
  assert (Sab : 0 <= B2R a /\ 0 <= B2R b /\ B2R a + B2R b <= 1).
  { rewrite Va, Vb. change (2 ^ 53)%Z with 9007199254740992%Z. change (2 ^ 57)%Z with 144115188075855872%Z. lra. }
  destruct Sab as (Sa & Sb & Sab).
  assert (B1 : 1 <= bpow radix2 1023) by (change 1 with (bpow radix2 0); apply bpow_le; lia).
  destruct (b64_mul_ok a t Fa Ft) as [M1 F1]. { apply Rabs_le. nra. }
  destruct (b64_mul_ok b x Fb Fx) as [M2 F2]. { apply Rabs_le. nra. }
  assert (R1 : - B2R a <= B2R (Bmult mode_NE a t) <= 0).
  { rewrite M1. split; [apply rnd_lb; [apply fmt_opp, fmt_b64|nra]|]. apply rnd_ub; [apply (fmt_int 0); cbn; lia|nra]. }
  assert (R2 : - B2R b <= B2R (Bmult mode_NE b x) <= 0).
  { rewrite M2. split; [apply rnd_lb; [apply fmt_opp, fmt_b64|nra]|]. apply rnd_ub; [apply (fmt_int 0); cbn; lia|nra]. }
  destruct (b64_add_ok _ _ F1 F2) as [M3 F3]. { apply Rabs_le. lra. }
  split; [exact F3|]. rewrite M3. split; [apply rnd_lb; [apply (fmt_int (-1)); cbn; lia|lra]|]. apply rnd_ub; [apply (fmt_int 0); cbn; lia|lra].
Qed.

Lemma typical_range_b64 : forall (lm : libm) (cf : config b64) m,
  reach_if (A := BA lm) cf (scored (A := BA lm) cf (fun x => is_finite x = true /\ -1 <= B2R x <= 0)) m ->
  is_finite (sh_typical (mp_sh m)) = true /\ -1 <= B2R (sh_typical (mp_sh m)) <= 0.
Proof.
  intros lm cf m R. apply (typical_reach (A := BA lm) cf (fun x => is_finite x = true /\ -1 <= B2R x <= 0) (fun x => is_finite x = true /\ -1 <= B2R x <= 0)); [|apply smooth_range_b64|exact R].
  assert (E : nopp (Arith := BA lm) (nlit (A := BA lm) 1 2) = b64_of (-1) (-1)) by b64_compute.
  rewrite E. split; [vm_compute; reflexivity|]. rewrite <- (SF2R_B2SF 53 1024). replace (B2SF (b64_of (-1) (-1))) with (SpecFloat.S754_finite true 4503599627370496 (-53)) by (vm_compute; reflexivity).
  cbn [SF2R cond_Zopp]. unfold F2R. cbn [Fnum Fexp]. change (bpow radix2 (-53)) with (/ 9007199254740992). change (- (4503599627370496))%Z with (-4503599627370496)%Z. lra.
Qed.

(** A scan without points: the score is 0/0, the typical response becomes and
    stays a NaN, and no candidate is ever accepted again. *)
Lemma match_step_empty : forall (lm : libm) g dth dx dy w w', match_step (A := BA lm) g [] dth dx w dy = Ok w' ->
  w_best w = B754_zero false -> w_best w' = B754_zero false.
Proof. intros lm g dth dx dy w w' H E. injection H as <-. cbn [w_best]. rewrite E. reflexivity. Qed.

Lemma match_scan_empty : forall (lm : libm) fuel k g s p cov score corr cov', k_ndt k = Some g -> (0 <= k_beams k)%Z -> s_pts s = [] ->
  match_scan (A := BA lm) fuel k s p cov = Ok (score, corr, cov') -> score = B754_nan.
Proof.
  intros lm fuel k g s p cov score corr cov' Hg Hb Hs H. unfold match_scan in H. rewrite Hg, Hs in H. 
  apply bind_ok in H. destruct H as (dths & _ & H). apply bind_ok in H. destruct H as (ds & _ & H). apply bind_ok in H. destruct H as (w & Hw & H).
  injection H as <- _ _.
  assert (Ew : w_best w = B754_zero false).
  { refine (foldM_inv (fun w => w_best w = B754_zero false) _ dths _ _ w _ Hw); [|reflexivity].
    intros w0 dth w1 I0 _ H0. apply bind_ok in H0. destruct H0 as (bp & Eb & H0).
    assert (bp = []) as ->.
    { unfold beam_points in Eb. replace (beams_used k []) with 0%Z in Eb by (unfold beams_used; cbn; lia). injection Eb as <-. reflexivity. }
    refine (foldM_inv (fun w => w_best w = B754_zero false) _ ds _ w0 w1 I0 H0).
    intros w2 dx w3 I2 _ H2. refine (foldM_inv (fun w => w_best w = B754_zero false) _ ds _ w2 w3 I2 H2).
    intros w4 dy w5 I4 _ H4. exact (match_step_empty lm g dth dx dy w4 w5 H4 I4). }
  rewrite Ew. replace (beams_used k []) with 0%Z by (unfold beams_used; cbn; lia). reflexivity.
Qed.

Lemma smooth_nan : forall (lm : libm) (t x : b64), is_nan t = true -> is_nan (smooth_response (A := BA lm) t x) = true.
Proof.
  intros lm t x H. destruct t; try discriminate H.
  change (smooth_response (A := BA lm) B754_nan x) with (Bplus mode_NE (Bmult mode_NE (Bdiv mode_NE (b64_of 95 0) (b64_of 100 0)) B754_nan) (Bmult mode_NE (Bdiv mode_NE (b64_of 5 0) (b64_of 100 0)) x)).
  destruct (Bdiv mode_NE (b64_of 95 0) (b64_of 100 0)); reflexivity.
Qed.
Lemma nan_beats : forall (lm : libm) (t x : b64), is_nan t = true -> nlt (Arith := BA lm) x t = false.
Proof. intros lm t x H. destruct t; try discriminate H. destruct x; reflexivity. Qed.

Lemma empty_scan_spoils : forall (lm : libm) (cf : config b64) m m' p odom sc,
  (forall r, (0 <= k_beams (en_local cf r))%Z) -> reachable (A := BA lm) cf m ->
  sp_pc (mp_spin m) = SMatch p odom -> sh_scans (mp_sh m) <> [] -> nth_error (sh_heap (mp_sh m)) p = Some sc -> s_pts sc = [] ->
  step (A := BA lm) cf Spin m = Some (Ok m') -> is_nan (sh_typical (mp_sh m')) = true.
Proof.
  intros lm cf m m' p odom sc Hb R Pc NE Hs He S. apply (step_cases (A := BA lm)) in S.
  inversion S as [|s1 sp1 D| |]; subst. cbn [mp_sh].
  destruct D; match goal with P : sp_pc (mp_spin m) = _ |- _ => rewrite Pc in P; try discriminate P end; [contradiction|].
  match goal with P : SMatch _ _ = SMatch _ _ |- _ => injection P as <- <- end.
  match goal with Q : nth_error (sh_heap (mp_sh m)) p = Some ?x |- _ => lazymatch x with sc => fail | _ => rewrite Hs in Q; injection Q as <- end end.
  match goal with Q : sp_local _ = Some ?k |- _ => destruct (local_reachable (A := BA lm) cf m R k Q) as [r Er] end.
  match goal with K : add_scans _ _ _ = Ok _ |- _ => apply add_scans_run in K; cbv zeta in K; destruct K as (g0 & g & _ & _ & ->) end.
  match goal with Q : match_scan _ _ _ _ _ = Ok _ |- _ => apply (match_scan_empty lm _ _ g) in Q; [subst score|reflexivity| |exact He] end.
  - cbn [put set_heap set_typical sh_typical].
    match goal with |- is_nan (smooth_response ?t _) = true => change (is_nan (Bplus mode_NE (Bmult mode_NE (Bdiv mode_NE (b64_of 95 0) (b64_of 100 0)) t) (Bmult mode_NE (Bdiv mode_NE (b64_of 5 0) (b64_of 100 0)) B754_nan)) = true) end.
    destruct (Bdiv mode_NE (b64_of 5 0) (b64_of 100 0)), (Bmult mode_NE (Bdiv mode_NE (b64_of 95 0) (b64_of 100 0)) (sh_typical (mp_sh m))); reflexivity.
  - match goal with |- (0 <= k_beams (with_ndt (matcher_reset ?k) _))%Z => change (0 <= k_beams (matcher_reset k))%Z end. rewrite Er. exact (Hb r).
Qed.

Lemma nan_is_final : forall (lm : libm) (cf : config b64) ls m m', exec (A := BA lm) cf m ls = Ok m' ->
  is_nan (sh_typical (mp_sh m)) = true -> undecided m ->
  is_nan (sh_typical (mp_sh m')) = true /\
  exists new, sh_trace (mp_sh m') = new ++ sh_trace (mp_sh m) /\ Forall no_closure new.
Proof.
  intros lm cf ls m m' E N U.
  destruct (closed_closure (A := BA lm) cf (fun t => is_nan t = true) (smooth_nan lm) (nan_beats lm) ls m m' E N U) as (H1 & _ & H2).
  split; assumption.
Qed.

(** ** C79 *)
Lemma measured_motion : forall cf : config R, use_filter cf = false -> cf_file cf = None -> forall m p odom m1 m2, reach_if cf laser_only m ->
  sp_pc (mp_spin m) = SMatch p odom -> sh_scans (mp_sh m) <> [] -> step cf Spin m = Some (Ok m1) -> step cf Spin m1 = Some (Ok m2) ->
  exists sc k score corr cov c, nth_error (sh_heap (mp_sh m)) p = Some sc /\
    sp_local (mp_spin m2) = Some k /\ match_scan (en_fuel cf) k sc pose0 (en_garbage cf) = Ok (score, corr, cov) /\
    sp_pc (mp_spin m2) = SConsLock p odom c /\
    forall d, same_pose (compose (sh_odom (mp_sh m)) d) odom ->
      exists g, same_pose (compose (sh_robot (mp_sh m)) d) g /\
        compose (sh_robot (mp_sh m)) (mkPose (v0 (c_transform c)) (v1 (c_transform c)) (v2 (c_transform c))) =
        mkPose (pox g + pox corr) (poy g + poy corr) (poth g + poth corr).
Proof.
  intros cf UF NF m p odom m1 m2 R Pc NE S1 S2.
  destruct (step_constraint cf UF NF m p odom m1 m2 R Pc NE S1 S2) as (sc & k & score & corr & cov & back & c & K1 & K2 & K3 & K4 & K5 & K6 & ->).
  exists sc, k, score, corr, cov. eexists. split; [exact K1|]. split; [exact K3|]. split; [exact K4|]. split; [exact K6|].
  intros d Hd. exists (odom_guess (sh_robot (mp_sh m)) (sh_odom (mp_sh m)) odom). split; [apply odom_guess_rigid; exact Hd|].
  destruct (make_constraint_spec back (scan_set_pose sc (add_correction (s_pose sc) corr)) cov) as (E & _). rewrite K5 in E. rewrite E.
  cbn [s_pose scan_set_pose]. rewrite K2. unfold add_correction. generalize (odom_guess (sh_robot (mp_sh m)) (sh_odom (mp_sh m)) odom). intro g0. ra. f_equal; apply Rplus_comm.
Qed.
