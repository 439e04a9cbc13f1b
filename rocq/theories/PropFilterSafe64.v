(** Property C154: every history of calls of the particle filter is well defined in
    double arithmetic and keeps the particles near. *)

From Coq Require Import ZArith Reals List Bool Lra Lia.
From Flocq Require Import Core BinarySingleNaN.
From Verif Require Import Outcome Arith TypesModel ScanModel NdtModel KdModel MotionModel FilterModel MatcherModel NdtProofs FilterProofs FilterProofs2
  SpecAngle64 SpecB64 SpecPlace64 SpecMapSafe64 SpecWeights64 SpecResample64 SpecFilterSafe64
  B64Tactics B64Lemmas CellB64 NearB64 PropGrid64 PropAngle64 PropFilter PropMapSafe64 PropScore64 PropWeights64 PropResample64 NearestB64 PropRigid64.
Import ListNotations.
Local Open Scope R_scope.

Lemma call_op (N : R) (f : pfilter b64) (o : filter_op b64) : call_ok64 N f o -> op_ok64 f o.
Proof.
  destruct o as [n x y th sx sy sth|n dx dy dth|s|d e z]; cbn [call_ok64 op_ok64]; try (intros; exact I).
  - intros [H K]. split; [|exact K]. intros p v Hp Hv. destruct (H p Hp) as (v' & Hv' & F & B).
    assert (v' = v) as -> by congruence. split; assumption.
  - intros (_ & _ & H). eapply Forall_impl; [|exact H]. cbv beta. intros i (I0 & w & Hw & Pw). exists w. split; [|exact Pw].
    unfold vec_get. destruct (Z.ltb_spec i 0); [lia|]. rewrite Hw. reflexivity.
Qed.

Lemma pi_4 : B2R b64_pi <= 4.
Proof. rewrite (proj1 pi64). unfold pi_q. lra. Qed.

Lemma p100 : 1 <= bpow radix2 28 <= bpow radix2 100.
Proof. split; [change 1 with (bpow radix2 0)|]; apply bpow_le; lia. Qed.

Lemma plus_upto (x y : b64) (b c : R) : upto b x -> upto c y -> b + c <= bpow radix2 200 -> upto (2 * (b + c)) (Bplus mode_NE x y).
Proof.
  intros [Fx Bx] [Fy By] H.
  assert (S : Rabs (B2R x + B2R y) <= b + c) by (eapply Rle_trans; [apply Rabs_triang|lra]).
  destruct (b64_add_ok x y Fx Fy) as [V F]; [eapply Rle_trans; [exact S|]; eapply Rle_trans; [exact H|apply bpow_le; lia]|].
  split; [exact F|]. rewrite V.
  pose proof (rnd_plus (B2R x) (B2R y) (fmt_b64 x) (fmt_b64 y)) as E.
  replace (rnd (B2R x + B2R y)) with ((rnd (B2R x + B2R y) - (B2R x + B2R y)) + (B2R x + B2R y)) by ring.
  eapply Rle_trans; [apply Rabs_triang|]. pose proof (Rabs_pos (B2R x + B2R y)).
  assert (u64 * Rabs (B2R x + B2R y) <= 1 * Rabs (B2R x + B2R y)) by (apply Rmult_le_compat_r; [lra|rewrite u64_val; lra]). lra.
Qed.

Lemma heading4 (lm : libm) (a : b64) : exact_fmod lm -> upto (bpow radix2 200) a -> upto 4 (normalize_angle (A := BA lm) a).
Proof.
  intros X [F B]. destruct (C125_normalize_angle lm a X F) as [[F1 _] R1]; [eapply Rle_trans; [exact B|apply bpow_le; lia]|].
  split; [exact F1|]. pose proof pi_4. lra.
Qed.

(** One coordinate after a motion. *)
Lemma moved_upto (b N : R) (x t c : b64) (C : R) : 1 <= N -> 0 <= b -> b + N <= bpow radix2 30 ->
  upto b x -> upto N t -> unit_near c C -> upto (b + 2 * N) (Bplus mode_NE x (Bmult mode_NE t c)).
Proof.
  intros N1 B0 HB [Fx Bx] [Ft Bt] U.
  assert (HM : usual_size (b + N)).
  { split; [|eapply Rle_trans; [exact HB|apply bpow_le; lia]]. apply Rle_trans with 1; [change 1 with (bpow radix2 0); apply bpow_le; lia|lra]. }
  pose proof (near_upto (b + N) t) as Nt. pose proof (near_upto (b + N) x) as Nx.
  assert (Nt' : near (b + N) 0 1 t (B2R t)) by (apply Nt; split; [exact Ft|lra]).
  assert (Nx' : near (b + N) 0 1 x (B2R x)) by (apply Nx; split; [exact Fx|lra]).
  pose proof (near_mul_r (b + N) HM 0 1 c t C (B2R t) ltac:(lra) ltac:(lra) U Nt') as P.
  pose proof (near_add (b + N) HM 0 (0 + 3 * 1 + / 50) 1 1 x _ (B2R x) _ ltac:(lra) ltac:(lra) ltac:(lra) ltac:(lra) Nx' P) as (F & E & _).
  split; [exact F|].
  set (r := Bplus mode_NE x (Bmult mode_NE t c)) in *.
  assert (E2 : Rabs (B2R r - (B2R x + B2R t * C)) <= 10 * (u64 * bpow radix2 30)).
  { eapply Rle_trans; [exact E|]. pose proof u64_pos as U0.
    assert (u64 * (b + N) <= u64 * bpow radix2 30) by (apply Rmult_le_compat_l; lra). nra. }
  assert (u64 * bpow radix2 30 <= / 1000000) by (rewrite u64_val; change (bpow radix2 30) with 1073741824; lra).
  destruct U as (_ & _ & C1).
  assert (T : Rabs (B2R t * C) <= N).
  { rewrite Rabs_mult. pose proof (Rabs_pos C). pose proof (Rabs_pos (B2R t)). nra. }
  replace (B2R r) with ((B2R r - (B2R x + B2R t * C)) + (B2R x + B2R t * C)) by ring.
  eapply Rle_trans; [apply Rabs_triang|]. pose proof (Rabs_triang (B2R x) (B2R t * C)). lra.
Qed.

(** A filter whose weights are a distribution and whose particles are within [b]. *)
Definition sound64 (b : R) (f : pfilter b64) : Prop := good f /\ Forall (particle_upto b) (pf_parts f).

Lemma stats_parts (lm : libm) (f f' : pfilter b64) : update_stats (A := BA lm) f = Ok f' -> pf_parts f' = pf_parts f.
Proof. unfold update_stats. intro H. apply bind_ok in H. destruct H as (pw & _ & H). injection H as <-. reflexivity. Qed.

Lemma particle_mono (b c : R) (p : vec3 b64) : b <= c -> particle_upto b p -> particle_upto c p.
Proof. intros L ((F0 & B0) & (F1 & B1) & H). split; [split; [exact F0|lra]|]. split; [split; [exact F1|lra]|exact H]. Qed.

Lemma map_i_all {X Y : Type} (P : Y -> Prop) (Q : X -> Prop) (f : nat -> X -> Y) (l : list X) :
  (forall i x, Q x -> P (f i x)) -> Forall Q l -> forall i, Forall P (map_i f i l).
Proof. intros H. induction 1 as [|x l Hx Hl IH]; intro i; cbn [map_i]; [apply Forall_nil|apply Forall_cons; [apply H; exact Hx|apply IH]]. Qed.

Lemma step_sound (lm : libm) (N b : R) (f : pfilter b64) (o : filter_op b64) :
  accurate_trig lm -> exact_fmod lm -> 1 <= N -> 0 <= b -> b + 2 * N <= bpow radix2 28 ->
  sound64 b f -> call_ok64 N f o -> exists f', filter_step (A := BA lm) f o = Ok f' /\ sound64 (b + 2 * N) f'.
Proof.
  intros T X N1 B0 HB [G P] C. pose proof (call_op N f o C) as O. pose proof p100 as P100.
  assert (U28 : bpow radix2 28 <= bpow radix2 200 * / 1000000).
  { change (bpow radix2 200) with (IZR (2 ^ 200)). change (bpow radix2 28) with (IZR (2 ^ 28)). cbn. lra. }
  cut (exists f', filter_step (A := BA lm) f o = Ok f' /\ Forall (particle_upto (b + 2 * N)) (pf_parts f')).
  { intros (f' & E & Q). exists f'. split; [exact E|]. split; [|exact Q]. exact (step_good lm f o f' G O E). }
  assert (LW : length (pf_wts f) = length (pf_parts f)) by apply G.
  assert (HD : forall h, upto (5 * bpow radix2 28) h -> upto 4 (normalize_angle (A := BA lm) h)).
  { intros h [F B]. apply heading4; [exact X|]. split; [exact F|lra]. }
  destruct o as [n x y th sx sy sth|n dx dy dth|s|d e z]; cbn [filter_step call_ok64] in C |- *.
  - unfold filter_init.
    match goal with |- context [update_stats ?g] => destruct (update_stats_total b64 (BA lm) g) as (f' & E); [cbn [with_parts pf_parts pf_wts]; rewrite repeat_length; lia|] end.
    exists f'. split; [exact E|]. rewrite (stats_parts _ _ _ E). cbn [with_parts pf_parts].
    apply (map_i_all _ (particle_upto b)); [|exact P]. intros i p _.
    split; [|split]; cbn [v0 v1 v2].
    + destruct (C (3 * i)%nat (nsingle (Arith := BA lm) x) (nsingle (Arith := BA lm) sx)) as [F B]. split; [exact F|lra].
    + destruct (C (3 * i + 1)%nat (nsingle (Arith := BA lm) y) (nsingle (Arith := BA lm) sy)) as [F B]. split; [exact F|lra].
    + apply HD. destruct (C (3 * i + 2)%nat (nsingle (Arith := BA lm) th) (nsingle (Arith := BA lm) sth)) as [F B]. split; [exact F|lra].
  - unfold filter_update.
    match goal with |- context [update_stats ?g] => destruct (update_stats_total b64 (BA lm) g) as (f' & E);
      [cbn [with_parts pf_parts pf_wts]; unfold motion_sample; rewrite map_i_len; lia|] end.
    exists f'. split; [exact E|]. rewrite (stats_parts _ _ _ E). cbn [with_parts pf_parts].
    unfold motion_sample. apply (map_i_all _ (particle_upto b)); [|exact P]. intros i p Hp.
    unfold sample_one. destruct (motion_mean (A := BA lm) dx dy dth) as [[mt m1] m2].
    destruct (motion_sigmas (A := BA lm) (pf_motion f) dx dy dth) as [[s1 s2] s3].
    set (r1 := n (3 * i)%nat _ _). set (t := n (3 * i + 1)%nat _ _). set (r2 := n (3 * i + 2)%nat _ _).
    assert (U1 : upto N r1) by apply C. assert (Ut : upto N t) by apply C. assert (U2 : upto N r2) by apply C.
    destruct Hp as (H0 & H1 & H2).
    assert (S1 : upto (2 * (4 + N)) (Bplus mode_NE (v2 p) r1)) by (apply plus_upto; [exact H2|exact U1|lra]).
    assert (S2 : upto (2 * (2 * (4 + N) + N)) (Bplus mode_NE (Bplus mode_NE (v2 p) r1) r2)) by (apply plus_upto; [exact S1|exact U2|lra]).
    assert (B30 : b + N <= bpow radix2 30) by (assert (bpow radix2 28 <= bpow radix2 30) by (apply bpow_le; lia); lra).
    split; [|split]; cbn [v0 v1 v2].
    + apply (moved_upto b N (v0 p) t _ (cos (B2R (Bplus mode_NE (v2 p) r1)))); try assumption. apply cos_unit; [exact T|apply S1].
    + apply (moved_upto b N (v1 p) t _ (sin (B2R (Bplus mode_NE (v2 p) r1)))); try assumption. apply sin_unit; [exact T|apply S1].
    + apply HD. destruct S2 as [F B]. split; [exact F|].
      assert (16 <= bpow radix2 28) by (change 16 with (bpow radix2 4); apply bpow_le; lia). eapply Rle_trans; [exact B|lra].
  - destruct (measure_total lm s f LW) as (f' & E).
    { intros p Hp. destruct C as [C _]. destruct (C p Hp) as (v & Hv & _). exists v. exact Hv. }
    exists f'. split; [exact E|]. unfold filter_measure in E. destruct (_ <? _)%nat; [discriminate E|]. apply bind_ok in E. destruct E as (ws & _ & E).
    rewrite (stats_parts _ _ _ E). cbn [with_parts pf_parts]. eapply Forall_impl; [|exact P]. intros p. apply particle_mono. lra.
  - destruct C as (K & L & D).
    assert (D' : Forall (fun i => 0 <= i < Z.of_nat (length (pf_parts f)))%Z d).
    { eapply Forall_impl; [|exact D]. cbv beta. intros i (I0 & w & Hw & _). split; [exact I0|].
      assert (Z.to_nat i < length (pf_wts f))%nat by (apply nth_error_Some; congruence). lia. }
    destruct G as (G1 & G2 & G3 & G4).
    destruct (C147_resample lm d e z f) as (f' & E & _); try assumption; try lia.
    { apply good_dist_ok. split; [exact G1|]. split; [exact G2|]. split; [exact G3|exact G4]. }
    { eapply Forall_impl; [|exact P]. intros p. apply particle_mono. lra. }
    exists f'. split; [exact E|]. unfold filter_resample in E. destruct (dist_ok _); [|discriminate E]. apply bind_ok in E. destruct E as (acc & Ha & E).
    rewrite (stats_parts _ _ _ E). cbn [with_parts pf_parts].
    destruct (resample_loop_draws _ _ _ _ _ _ _ _ _ _ _ Ha) as (k & new & Hk & -> & Q). cbn [app].
    rewrite Forall_map. clear - Q P N1. induction Q as [|i q is qs (H1 & H2) Q IH]; [apply Forall_nil|apply Forall_cons; [|exact IH]].
    unfold vec_get in H1. destruct (_ <? 0)%Z; [discriminate|]. destruct (nth_error (pf_parts f) (Z.to_nat i)) eqn:E; [|discriminate].
    injection H1 as H1. rewrite <- H1. rewrite Forall_forall in P. apply (particle_mono b); [lra|]. apply P. eapply nth_error_In. exact E.
Qed.

(** Every history of calls, from the constructor on. *)
Lemma run_sound (lm : libm) (N : R) : accurate_trig lm -> exact_fmod lm -> 1 <= N ->
  forall (ops : list (filter_op b64)) (b : R) (f : pfilter b64), 0 <= b -> b + 2 * N * INR (length ops) <= bpow radix2 28 ->
  sound64 b f -> calls_ok64 lm N f ops ->
  exists f', filter_run (A := BA lm) f ops = Ok f' /\ sound64 (b + 2 * N * INR (length ops)) f'.
Proof.
  intros T X N1. induction ops as [|o ops IH]; intros b f B0 HB S C.
  - exists f. split; [reflexivity|]. cbn [length INR] in *. replace (b + 2 * N * 0) with b by ring. exact S.
  - cbn [length] in HB |- *. rewrite S_INR in HB |- *. destruct C as [C1 C2]. pose proof (pos_INR (length ops)) as I0.
    assert (0 <= 2 * N * INR (length ops)) by (apply Rmult_le_pos; lra).
    destruct (step_sound lm N b f o T X N1 B0 ltac:(lra) S C1) as (g & E & G).
    destruct (IH (b + 2 * N) g) as (f' & E' & F'); [lra|lra|exact G|apply C2; exact E|].
    exists f'. split.
    + unfold filter_run in *. cbn [foldM]. rewrite E. exact E'.
    + replace (b + 2 * N * (INR (length ops) + 1)) with (b + 2 * N + 2 * N * INR (length ops)) by ring. exact F'.
Qed.

Theorem C154_history (lm : libm) (N : R) (mn mx : Z) (m : motion_params b64) (ops : list (filter_op b64)) :
  accurate_trig lm -> exact_fmod lm -> (1 <= mn <= mx)%Z -> (mx <= 2 ^ 40)%Z -> 1 <= N -> 2 * N * INR (length ops) <= bpow radix2 28 ->
  exists f0, filter_new (A := BA lm) mn mx m = Ok f0 /\
    (calls_ok64 lm N f0 ops -> exists f, filter_run (A := BA lm) f0 ops = Ok f /\
       Forall (particle_upto (2 * N * INR (length ops))) (pf_parts f) /\ distribution64 f).
Proof.
  intros T X M1 M2 N1 HB.
  assert (E : exists f0, filter_new (A := BA lm) mn mx m = Ok f0).
  { unfold filter_new. apply update_stats_total. cbn [pf_parts pf_wts]. rewrite !repeat_length. lia. }
  destruct E as (f0 & E). exists f0. split; [exact E|]. intro C.
  destruct (run_sound lm N T X N1 ops 0 f0) as (f & R & G & P); [lra|lra| |exact C|].
  - split; [exact (new_good lm mn mx m f0 M1 M2 E)|]. unfold filter_new in E. rewrite (stats_parts _ _ _ E). cbn [pf_parts].
    apply Forall_forall. intros p Hp. apply repeat_spec in Hp. subst p.
    assert (Z : forall c, 0 <= c -> upto c (nzero (A := BA lm))).
    { intros c Hc. destruct (b64_ofZ 0 ltac:(lia)) as [V0 F0]. change (nzero (A := BA lm)) with (b64_of 0 0). split; [exact F0|]. rewrite V0, Rabs_R0. exact Hc. }
    split; [apply Z; lra|]. split; [apply Z; lra|apply Z; lra].
  - exists f. split; [exact R|]. rewrite Rplus_0_l in P. split; [exact P|apply G].
Qed.
Print Assumptions C154_history.

(** On a map none of whose cells holds coinciding points only, the scores of the
    matcher are of the size measure needs; one particle must see the map. *)
Theorem C154_measure (lm : libm) (N M M' : R) (eig : mat2 b64 -> b64 * b64) (m0 m : matcher b64) (g : ndt b64) (scans : list (scan b64))
  (pts : list (point b64)) (f : pfilter b64) :
  accurate_trig lm -> exp_unit lm -> sane_eigenvalues eig -> usual_size M -> fits_map M m0 -> (1 <= k_beams m0)%Z ->
  scans <> [] -> Forall (scan_upto M) scans -> add_scans (A := BA lm) eig m0 scans = Ok m -> k_ndt m = Some g ->
  (g_sx g * g_sy g < 2 ^ 31)%Z -> moderate_grid g ->
  bpow radix2 (-80) <= M' <= bpow radix2 80 -> INR (length (moved64 lm scans)) <= 2 ^ 40 ->
  Forall (coordinates_within M') (moved64 lm scans) -> spread_in_cells lm M' g (moved64 lm scans) ->
  pts <> [] -> Forall (point_upto M) pts -> (Z.of_nat (length pts) <= 2 ^ 52)%Z -> Forall (particle_upto M) (pf_parts f) ->
  (exists p s, In p (pf_parts f) /\ score_points (A := BA lm) m pts (mkPose (v0 p) (v1 p) (v2 p)) = Ok s /\ B2R s <> 0) ->
  call_ok64 N f (FMeasure (score_points (A := BA lm) m pts)).
Proof.
  intros T X S HM FM KB SN SU E G SZ MG BM NM CM SP PN PU PL FP NZ. split; [|exact NZ].
  intros p Hp. rewrite Forall_forall in FP. destruct (FP p Hp) as (P0 & P1 & P2).
  destruct (C145_score lm M eig m0 m scans pts (mkPose (v0 p) (v1 p) (v2 p)) T HM FM SN SU E) as (v & Hv); try assumption; [|lia|].
  { split; [exact P0|]. split; [exact P1|apply P2]. }
  exists v. split; [exact Hv|].
  destruct (C120_spread_partial lm eig m0 m g scans M' S X E G SZ MG KB BM NM CM SP) as (H & _).
  destruct (H pts _ v PN PL Hv) as [F B]. split; [exact F|].
  assert (1 <= bpow radix2 900) by (change 1 with (bpow radix2 0); apply bpow_le; lia). lra.
Qed.
Print Assumptions C154_measure.

(** A filter of one particle: resample, init, update and measure. *)
Definition short_history (err z : b64) : list (filter_op b64) :=
  let o := b64_of 1 0 in
  [FResample [0%Z] err z; FInit (fun _ _ _ => o) o o o o o o; FUpdate (fun _ _ _ => o) o o o; FMeasure (fun _ => Ok minus1)].

Lemma stats_fields (lm : libm) (f f' : pfilter b64) : update_stats (A := BA lm) f = Ok f' ->
  pf_wts f' = map (fun w => ndiv (Arith := BA lm) w (fold_left (nadd (Arith := BA lm)) (pf_wts f) (nzero (A := BA lm)))) (pf_wts f) /\ pf_max f' = pf_max f.
Proof. unfold update_stats. intro H. apply bind_ok in H. destruct H as (pw & _ & H). injection H as <-. split; reflexivity. Qed.

Lemma new_weights (lm : libm) (mo : motion_params b64) (f0 : pfilter b64) : filter_new (A := BA lm) 1 1 mo = Ok f0 ->
  pf_wts f0 = [b64_of 1 0] /\ pf_max f0 = 1%Z.
Proof.
  unfold filter_new. intro H. apply stats_fields in H. destruct H as [-> ->].
  split; [|reflexivity]. cbn [pf_wts]. change (Z.to_nat 1) with 1%nat. cbn [repeat map fold_left]. f_equal. apply b64_eq. vm_compute. reflexivity.
Qed.

Example C154_nonvacuous (lm : libm) (mo : motion_params b64) :
  let lm' := with_nearest (with_fmod lm) in
  let ops := short_history (nlit (A := BA lm') 1 100) (nlit (A := BA lm') 23 10) in
  accurate_trig lm' /\ exact_fmod lm' /\ exists f0 f,
    filter_new (A := BA lm') 1 1 mo = Ok f0 /\ calls_ok64 lm' 1 f0 ops /\
    filter_run (A := BA lm') f0 ops = Ok f /\ Forall (particle_upto 8) (pf_parts f) /\ distribution64 f.
Proof.
  assert (T : accurate_trig (with_nearest (with_fmod lm))) by apply nearest_accurate.
  assert (X : exact_fmod (with_nearest (with_fmod lm))) by (apply nearest_fmod; exact (proj1 (C125_nonvacuous lm))).
  revert T X. generalize (with_nearest (with_fmod lm)). intros lm' T X. cbv zeta. split; [exact T|]. split; [exact X|].
  set (ops := short_history (nlit (A := BA lm') 1 100) (nlit (A := BA lm') 23 10)).
  assert (HB : 2 * 1 * INR (length ops) <= bpow radix2 28).
  { cbn [ops short_history length INR]. apply Rle_trans with (bpow radix2 3); [cbn; lra|apply bpow_le; lia]. }
  destruct (C154_history lm' 1 1 1 mo ops T X ltac:(lia) ltac:(lia) ltac:(lra) HB) as (f0 & E0 & H).
  destruct (b64_ofZ 1 ltac:(lia)) as [V1 F1].
  assert (O1 : forall (i : nat) (mean sigma : b64), upto 1 (b64_of 1 0)) by (intros _ _ _; split; [exact F1|rewrite V1, Rabs_R1; lra]).
  assert (G0 : good f0) by (apply (new_good lm' 1 1 mo f0); [lia|lia|exact E0]).
  destruct (new_weights lm' mo f0 E0) as (W & MX).
  assert (C : calls_ok64 lm' 1 f0 ops).
  { unfold ops, short_history. cbn [calls_ok64].
    assert (CR : call_ok64 1 f0 (FResample [0%Z] (nlit (A := BA lm') 1 100) (nlit (A := BA lm') 23 10))).
    { cbn [call_ok64]. rewrite MX, W. split.
      - destruct (C147_default lm') as (p & e & q & K & R). exists p, e, q. split; [lia|exact R].
      - split; [cbn; lia|]. constructor; [|constructor]. split; [lia|]. exists (b64_of 1 0). split; [reflexivity|rewrite V1; lra]. }
    split; [exact CR|]. intros f1 E1. pose proof (step_good lm' f0 _ f1 G0 (call_op 1 f0 _ CR) E1) as G1.
    split; [exact O1|]. intros f2 E2. assert (G2 : good f2) by (eapply step_good; [exact G1| |exact E2]; exact I).
    split; [exact O1|]. intros f3 E3. assert (G3 : good f3) by (eapply step_good; [exact G2| |exact E3]; exact I).
    split; [|intros; exact I]. destruct minus1_ok as [Fm Vm]. split.
    - intros p _. exists minus1. split; [reflexivity|]. split; [exact Fm|]. rewrite Vm.
      assert (1 <= bpow radix2 900) by (change 1 with (bpow radix2 0); apply bpow_le; lia). lra.
    - destruct G3 as (_ & _ & _ & N). destruct (pf_parts f3) as [|p ps]; [cbn in N; lia|].
      exists p, minus1. split; [left; reflexivity|]. split; [reflexivity|rewrite Vm; lra]. }
  destruct (H C) as (f & R & P & D). exists f0, f. split; [exact E0|]. split; [exact C|]. split; [exact R|]. split; [|exact D].
  eapply Forall_impl; [|exact P]. intros p. apply particle_mono. cbn [ops short_history length INR]. lra.
Qed.
