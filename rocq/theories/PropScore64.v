(** Property C120: the scores of the scan matcher in double arithmetic. *)

From Coq Require Import ZArith Reals List Bool Lia Lra Psatz.
From Flocq Require Import Core BinarySingleNaN.
From Verif Require Import Outcome Arith TypesModel CellModel ScanModel NdtModel MatcherModel SpecStats SumLemmas CellProofs NdtProofs MatcherProofs MatcherProofs2
  B64Tactics B64Lemmas MatcherB64 MatcherB64b MapperWitness2 SpecB64 CellB64 ScoreB64 InfoB64 PropCell64.
Import ListNotations.
Local Open Scope R_scope.

(** * Few points *)

Fixpoint count64 (k : nat) (n : b64) : b64 := match k with O => n | S k => count64 k (Bplus mode_NE n (b64_of 1 0)) end.

Lemma adds_count (lm : libm) (pts : list (point b64)) : forall c : cell b64,
  c_n (fold_left (cell_add_point (A := BA lm)) pts c) = count64 (length pts) (c_n c).
Proof.
  induction pts as [|p l IH]; intros c; [reflexivity|]. cbn [fold_left length]. rewrite IH. reflexivity.
Qed.

Lemma few_score (lm : libm) (eig : mat2 b64 -> b64 * b64) (ops : list (cell_op b64)) (q : point b64) :
  (length (op_points ops) < 5)%nat -> cell_score (A := BA lm) (cell_run (A := BA lm) eig (ops ++ [CCompute])) q = b64_of 0 0.
Proof.
  intros H. unfold cell_score.
  assert (E : nlt (Arith := BA lm) (c_n (cell_run (A := BA lm) eig (ops ++ [CCompute]))) (nofZ (Arith := BA lm) 5) = true); [|rewrite E; reflexivity].
  destruct (run_same_stats (A := BA lm) eig (ops ++ [CCompute])) as (-> & _).
  rewrite op_points_app. cbn [op_points flat_map]. rewrite app_nil_r. unfold accumulate. rewrite adds_count.
  cbn [nlt BA nofZ]. change (c_n (cell_new (A := BA lm))) with (b64_of 0 0).
  destruct (length (op_points ops)) as [|[|[|[|[|k]]]]]; [..|lia]; vm_compute; reflexivity.
Qed.

(** * Where a point with a cell lies *)

Lemma trunc_inv (x : b64) (z : Z) : b64_trunc x = Some z -> is_finite x = true /\ z = Ztrunc (B2R x).
Proof.
  intros H. assert (F : is_finite x = true) by (destruct x; cbn in H |- *; congruence).
  split; [exact F|]. rewrite b64_trunc_ok in H by exact F. congruence.
Qed.

Lemma axis_bound (lm : libm) (x o cs : b64) (i : Z) :
  is_finite cs = true -> bpow radix2 (-60) <= B2R cs <= bpow radix2 60 -> is_finite o = true -> Rabs (B2R o) <= bpow radix2 60 ->
  Bltb x o = false -> cast_unsigned (A := BA lm) 32 (Bdiv mode_NE (Bminus mode_NE x o) cs) = Ok i ->
  is_finite x = true /\ Rabs (B2R x) <= bpow radix2 100.
Proof.
  intros Fc Bc Fo Bo Hlt H. unfold cast_unsigned in H. cbn [ntrunc BA] in H.
  destruct (b64_trunc (Bdiv mode_NE (Bminus mode_NE x o) cs)) as [z|] eqn:T; [|discriminate H].
  destruct ((0 <=? z)%Z && (z <? 2 ^ 32)%Z) eqn:Z01; [|discriminate H]. apply andb_prop in Z01. destruct Z01 as [_ Zu]. apply Z.ltb_lt in Zu.
  destruct (trunc_inv _ _ T) as [Fd ->]. clear T H.
  assert (Fx : is_finite x = true).
  { destruct x as [s|s| |s m e h]; [reflexivity| | |reflexivity]; exfalso.
    - destruct o as [so|so| |so mo eo ho]; try discriminate Fo; destruct cs as [sc|sc| |sc mc ec hc]; try discriminate Fc; destruct s; discriminate Fd.
    - destruct o as [so|so| |so mo eo ho]; try discriminate Fo; destruct cs; discriminate Fd. }
  split; [exact Fx|].
  rewrite Bltb_correct in Hlt by assumption. destruct (Rlt_bool_spec (B2R x) (B2R o)) as [C|C]; [discriminate Hlt|]. clear Hlt.
  apply Rabs_le_inv in Bo. assert (B60 : bpow radix2 60 <= bpow radix2 99) by (apply bpow_le; lia).
  assert (B100 : bpow radix2 100 = 2 * bpow radix2 99) by (replace 100%Z with (1 + 99)%Z by lia; rewrite bpow_plus; reflexivity).
  apply Rabs_le. split; [lra|].
  destruct (Rle_or_lt (B2R x) (bpow radix2 100)) as [G|G]; [exact G|exfalso].
  assert (D : bpow radix2 99 <= B2R x - B2R o) by lra.
  (* the difference is finite: otherwise the quotient is infinite *)
  assert (Fm : is_finite (Bminus mode_NE x o) = true).
  { destruct (Bminus mode_NE x o) as [s|s| |s m e h]; [reflexivity| | |reflexivity];
      destruct cs as [sc|sc| |sc mc ec hc]; try discriminate Fc; discriminate Fd. }
  assert (Vm : bpow radix2 99 <= B2R (Bminus mode_NE x o)).
  { pose proof (Bminus_correct 53 1024 _ _ mode_NE x o Fx Fo) as K. cbv zeta in K.
    match type of K with (if ?b then _ else _) => destruct b end.
    - destruct K as (-> & _). apply (rnd_lb (bpow radix2 99)); [apply fmt_bpow; lia|exact D].
    - destruct K as (K & _). destruct (Bminus mode_NE x o); cbn in K; discriminate. }
  assert (C0 : 0 < B2R cs) by (pose proof (bpow_gt_0 radix2 (-60)); lra).
  assert (Dv : bpow radix2 39 <= B2R (Bminus mode_NE x o) / B2R cs).
  { apply Rmult_le_reg_r with (B2R cs); [exact C0|]. unfold Rdiv. rewrite Rmult_assoc, Rinv_l, Rmult_1_r by lra.
    eapply Rle_trans; [|exact Vm]. replace 99%Z with (39 + 60)%Z by lia. rewrite bpow_plus. apply Rmult_le_compat_l; [apply bpow_ge_0|lra]. }
  assert (Vd : bpow radix2 39 <= B2R (Bdiv mode_NE (Bminus mode_NE x o) cs)).
  { assert (N0 : B2R cs <> 0) by lra.
    pose proof (Bdiv_correct 53 1024 _ _ mode_NE (Bminus mode_NE x o) cs N0) as K. cbv zeta in K.
    match type of K with (if ?b then _ else _) => destruct b end.
    - destruct K as (-> & _). apply (rnd_lb (bpow radix2 39)); [apply fmt_bpow; lia|exact Dv].
    - destruct (Bdiv mode_NE (Bminus mode_NE x o) cs); cbn in K; discriminate. }
  assert (Zl : (2 ^ 39 <= Ztrunc (B2R (Bdiv mode_NE (Bminus mode_NE x o) cs)))%Z).
  { rewrite <- (Ztrunc_IZR (2 ^ 39)). apply Ztrunc_le. exact Vd. }
  lia.
Qed.

Lemma index_bound (lm : libm) (g : ndt b64) (q : point b64) (i : Z) :
  moderate_grid g -> ndt_index (A := BA lm) g (px q) (py q) = Ok i -> (0 <= i)%Z -> coordinates_within (bpow radix2 100) q.
Proof.
  intros (Fc & Bc & Fx & Bx & Fy & By) H Hi. unfold ndt_index in H. cbn [nlt BA] in H.
  destruct (Bltb (px q) (g_ox g)) eqn:Lx; [injection H as <-; lia|].
  destruct (Bltb (py q) (g_oy g)) eqn:Ly; [injection H as <-; lia|]. cbn [orb] in H.
  apply bind_ok in H. destruct H as (gx & Hx & H). apply bind_ok in H. destruct H as (gy & Hy & _).
  destruct (axis_bound lm _ _ _ _ Fc Bc Fx Bx Lx Hx) as [A1 A2]. destruct (axis_bound lm _ _ _ _ Fc Bc Fy By Ly Hy) as [A3 A4].
  split; [split; assumption|]. split; assumption.
Qed.

(** * The likelihoods of a built map *)

Lemma members_in_cell (lm : libm) (g h : ndt b64) (k : nat) (pts : list (point b64)) :
  same_geom g h -> filter (in_cell (A := BA lm) g k) pts = members64 lm h k pts.
Proof.
  intros H. unfold members64. apply filter_ext. intros p. rewrite (same_geom_in_cell (A := BA lm) g h k p H). reflexivity.
Qed.

Lemma history_moved (lm : libm) (scans : list (scan b64)) : history_points (A := BA lm) (map NAddScan scans) = moved64 lm scans.
Proof. unfold history_points, moved64. induction scans as [|s l IH]; cbn; [reflexivity|]. rewrite IH. reflexivity. Qed.

Lemma filter_le {X} (f : X -> bool) (l : list X) : (length (filter f l) <= length l)%nat.
Proof. induction l as [|x l IH]; cbn; [lia|]. destruct (f x); cbn; lia. Qed.

Lemma built_unit (lm : libm) (eig : mat2 b64 -> b64 * b64) (m0 m : matcher b64) (g : ndt b64) (scans : list (scan b64)) (M : R) :
  sane_eigenvalues eig -> exp_unit lm -> add_scans (A := BA lm) eig m0 scans = Ok m -> k_ndt m = Some g ->
  (g_sx g * g_sy g < 2 ^ 31)%Z -> moderate_grid g ->
  bpow radix2 (-80) <= M <= bpow radix2 80 -> INR (length (moved64 lm scans)) <= 2 ^ 40 ->
  Forall (coordinates_within M) (moved64 lm scans) -> spread_in_cells lm M g (moved64 lm scans) ->
  forall q v, ndt_likelihood (A := BA lm) g q = Ok v -> is_finite v = true /\ 0 <= B2R v <= 1.
Proof.
  intros He Hx H Hg Hn Hmod HM Hlen Hw Hsp q v Hq.
  apply add_scans_run in H. cbv zeta in H. destruct H as (g0 & g' & H0 & Hrun & ->). cbn in Hg. injection Hg as ->.
  pose proof (ndt_run_geom (A := BA lm) eig g0 g _ Hrun) as Hgeo.
  assert (Hn0 : (g_sx g0 * g_sy g0 < 2 ^ 31)%Z) by (destruct Hgeo as (_ & -> & -> & _); exact Hn).
  pose proof (ndt_new_wf (A := BA lm) _ _ _ _ _ g0 H0 Hn0) as Hwf.
  unfold ndt_likelihood in Hq. apply bind_ok in Hq. destruct Hq as (i & Hi & Hq).
  destruct (0 <=? i)%Z eqn:I0; [|injection Hq as <-; destruct b64_zero as [Z0 F0]; split; [exact F0|change (0 <= B2R (b64_of 0 0) <= 1); rewrite Z0; lra]].
  apply Z.leb_le in I0. pose proof (index_bound lm g q i Hmod Hi I0) as Bq.
  apply bind_ok in Hq. destruct Hq as (c & Hc & Hq). injection Hq as <-.
  apply vec_get_inv in Hc. destruct Hc as [_ Hc]. set (k := Z.to_nat i) in *.
  destruct Hgeo as (Q1 & Q2 & Q3 & Q4 & Q5 & Hl).
  assert (Hkl : (k < length (g_cells g0))%nat) by (rewrite Hl; apply nth_error_Some; congruence).
  destruct (nth_error (g_cells g0) k) as [c0|] eqn:Ec0; [|apply nth_error_None in Ec0; lia].
  destruct (ndt_new_cells (A := BA lm) _ _ _ _ _ g0 H0) as (_ & _ & _ & Hall).
  pose proof (Hall c0 (nth_error_In _ _ Ec0)) as ->.
  pose proof (ndt_run_cell (A := BA lm) eig _ g0 g k _ Hwf Hrun Ec0) as Hk'.
  assert (c = fold_left (cell_step (A := BA lm) eig) (cell_history (A := BA lm) g0 k (map NAddScan scans ++ [NCompute])) (cell_new (A := BA lm))) as -> by congruence.
  assert (Eh : cell_history (A := BA lm) g0 k (map NAddScan scans ++ [NCompute]) = cell_history (A := BA lm) g0 k (map NAddScan scans) ++ [CCompute]).
  { unfold cell_history. rewrite flat_map_app. reflexivity. }
  rewrite Eh. fold (cell_run (A := BA lm) eig (cell_history (A := BA lm) g0 k (map NAddScan scans) ++ [CCompute])).
  assert (Hp : op_points (cell_history (A := BA lm) g0 k (map NAddScan scans)) = members64 lm g k (moved64 lm scans)).
  { rewrite (cell_history_points (A := BA lm)), history_moved. apply members_in_cell. repeat split; assumption. }
  destruct (Nat.lt_ge_cases (length (op_points (cell_history (A := BA lm) g0 k (map NAddScan scans)))) 5) as [Hs|Hs].
  - rewrite few_score by exact Hs. destruct b64_zero as [Z0 F0]. split; [exact F0|]. rewrite Z0. lra.
  - destruct (Hsp k) as [Hlt|(v & Hv & Hb)]; [rewrite Hp in Hs; lia|].
    apply (C119_spread_partial lm eig M v); try assumption.
    + lia.
    + rewrite Hp. eapply Rle_trans; [|exact Hlen]. apply le_INR. unfold members64.
      apply filter_le.
    + rewrite Hp. unfold members64. rewrite Forall_forall in *. intros p Hpin. apply Hw. apply filter_In in Hpin. apply Hpin.
    + rewrite Hp. exact Hv.
    + rewrite Hp. exact Hb.
Qed.

(** * Normalised scores *)

Lemma score_points_b64 (lm : libm) (m : matcher b64) (g : ndt b64) (pts : list (point b64)) (p : pose b64) (v : b64) :
  k_ndt m = Some g -> (forall q v, ndt_likelihood (A := BA lm) g q = Ok v -> is_finite v = true /\ 0 <= B2R v <= 1) ->
  (1 <= k_beams m)%Z -> pts <> [] -> (Z.of_nat (length pts) <= 2 ^ 52)%Z ->
  score_points (A := BA lm) m pts p = Ok v -> normalised64 v.
Proof.
  intros Hg Hu Hb Hp Hl H. unfold score_points in H. rewrite Hg in H. cbv zeta in H.
  set (u := beams_used m pts) in *.
  assert (Hu1 : (1 <= u <= 2 ^ 52)%Z).
  { unfold u, beams_used. destruct pts; [congruence|]. cbn [length] in *. lia. }
  apply bind_ok in H. destruct H as (sc & Hsc & H). injection H as <-.
  assert (G : forall (l : list Z) (k : Z) (acc w : b64), (0 <= k)%Z -> (k + Z.of_nat (length l) <= 2 ^ 52)%Z ->
    is_finite acc = true -> - IZR k <= B2R acc <= 0 ->
    foldM (fun score i => bind (beam_index (A := BA lm) (scan_step_size (A := BA lm) m pts) i) (fun idx => bind (vec_get pts idx) (fun q =>
        bind (ndt_likelihood (A := BA lm) g (iso_apply (A := BA lm) p q)) (fun l => Ok (nadd (Arith := BA lm) score (nopp (Arith := BA lm) l)))))) acc l = Ok w ->
    is_finite w = true /\ - IZR (k + Z.of_nat (length l)) <= B2R w <= 0).
  { clear Hsc. induction l as [|j l IH]; intros k acc w Hk Hkl Hf Ha HF; cbn [foldM] in HF.
    - injection HF as <-. cbn [length]. rewrite Z.add_0_r. split; assumption.
    - apply bind_ok in HF. destruct HF as (acc1 & H1 & HF). apply bind_ok in H1. destruct H1 as (idx & _ & H1).
      apply bind_ok in H1. destruct H1 as (q & _ & H1). apply bind_ok in H1. destruct H1 as (lk & Hlk & H1).
      injection H1 as <-. destruct (Hu _ _ Hlk) as [Fl Bl]. cbn [nadd nopp BA] in HF.
      assert (Fo : is_finite (Bopp lk) = true) by (rewrite is_finite_Bopp; exact Fl).
      cbn [length] in Hkl. rewrite Nat2Z.inj_succ in Hkl.
      assert (Hkb : IZR (k + 1) <= bpow radix2 1023).
      { eapply Rle_trans; [apply Rle_abs|]. apply IZR_bpow1023. lia. }
      rewrite plus_IZR in Hkb.
      destruct (b64_add_ok acc (Bopp lk) Hf Fo) as [Ea Fa]; [rewrite B2R_Bopp; apply Rabs_le; lra|]. rewrite B2R_Bopp in Ea.
      replace (k + Z.of_nat (length (j :: l)))%Z with (k + 1 + Z.of_nat (length l))%Z by (cbn [length]; lia).
      apply (IH (k + 1)%Z (Bplus mode_NE acc (Bopp lk)) w); try assumption; try lia.
      rewrite Ea. split.
      + rewrite <- opp_IZR. apply rnd_lb; [apply fmt_int; lia|]. rewrite opp_IZR, plus_IZR. lra.
      + apply rnd_ub; [apply (fmt_int 0); cbn; lia|]. lra. }
  destruct b64_zero as [E0 F0].
  destruct (G (map Z.of_nat (seq 0 (Z.to_nat u))) 0%Z (b64_of 0 0) sc ltac:(lia) ltac:(rewrite map_length, seq_length; lia) F0 ltac:(rewrite E0; cbn; lra) Hsc) as [Fs Bs].
  rewrite map_length, seq_length, Z.add_0_l, Z2Nat.id in Bs by lia.
  destruct (b64_ofZ u ltac:(lia)) as [Eu Fu].
  assert (U1 : 1 <= IZR u) by (apply IZR_le; lia).
  assert (Hq : -1 <= B2R sc / IZR u <= 0).
  { assert (Hi : 0 < / IZR u) by (apply Rinv_0_lt_compat; lra).
    assert (IZR u * / IZR u = 1) by (apply Rinv_r; lra). unfold Rdiv. split; nra. }
  cbn [ndiv nofZ BA]. destruct (b64_div_ok sc (b64_of u 0)) as [Ed Fd]; [exact Fs|rewrite Eu; lra| |].
  { rewrite Eu. apply Rle_trans with 1; [apply Rabs_le; lra|]. apply (bpow_le radix2 0 1023). lia. }
  split; [exact Fd|]. rewrite Ed, Eu. split.
  - apply rnd_lb; [apply (fmt_int (-1)); cbn; lia|]. lra.
  - apply rnd_ub; [apply (fmt_int 0); cbn; lia|]. lra.
Qed.

(** What holds: maps whose cells are spread by more than the rounding noise. *)
Theorem C120_spread_partial :
  forall (lm : libm) (eig : mat2 b64 -> b64 * b64) (m0 m : matcher b64) (g : ndt b64) (scans : list (scan b64)) (M : R),
  sane_eigenvalues eig -> exp_unit lm -> add_scans (A := BA lm) eig m0 scans = Ok m -> k_ndt m = Some g ->
  (g_sx g * g_sy g < 2 ^ 31)%Z -> moderate_grid g -> (1 <= k_beams m0)%Z ->
  bpow radix2 (-80) <= M <= bpow radix2 80 -> INR (length (moved64 lm scans)) <= 2 ^ 40 ->
  Forall (coordinates_within M) (moved64 lm scans) -> spread_in_cells lm M g (moved64 lm scans) ->
  (forall pts p v, pts <> [] -> (Z.of_nat (length pts) <= 2 ^ 52)%Z -> score_points (A := BA lm) m pts p = Ok v -> normalised64 v) /\
  (forall s v, s_pts s <> [] -> (Z.of_nat (length (s_pts s)) <= 2 ^ 52)%Z -> score_scan (A := BA lm) m s = Ok v -> normalised64 v) /\
  (forall fuel s p cov r p' cov', s_pts s <> [] -> (Z.of_nat (length (s_pts s)) <= 2 ^ 52)%Z ->
     match_scan (A := BA lm) fuel m s p cov = Ok (r, p', cov') -> normalised64 r).
Proof.
  intros lm eig m0 m g scans M He Hx H Hg Hn Hmod Hb HM Hlen Hw Hsp.
  pose proof (built_unit lm eig m0 m g scans M He Hx H Hg Hn Hmod HM Hlen Hw Hsp) as Hu.
  assert (Kb : k_beams m = k_beams m0).
  { apply add_scans_run in H. cbv zeta in H. destruct H as (g0 & g' & _ & _ & ->). reflexivity. }
  rewrite <- Kb in Hb. split; [|split].
  - intros pts p v Hp Hl Hv. exact (score_points_b64 lm m g pts p v Hg Hu Hb Hp Hl Hv).
  - intros s v Hp Hl Hv. exact (score_points_b64 lm m g (s_pts s) (s_pose s) v Hg Hu Hb Hp Hl Hv).
  - intros fuel s p cov r p' cov' Hp Hl Hv. exact (score_finite lm fuel m g s p p' cov cov' r Hg Hu Hb Hp Hl Hv).
Qed.
Print Assumptions C120_spread_partial.

(** * The wall and the speck again *)

Definition at_pose (x y : Z) (pts : list (point b64)) : scan b64 :=
  mkScan 0%Z true (mkPose (b64_of x 0) (b64_of y 0) (b64_of 0 0)) (mkPose (b64_of 0 0) (b64_of 0 0) (b64_of 0 0)) pts.
(* 0.4 m ahead of the robot *)
Definition wall_scan : scan b64 := at_pose 115 0 (map (fun p => mkPoint (b64_of 7205759403792794 (-54)) (py p)) wall).
Definition wall_probe : scan b64 := at_pose 115 0 [mkPoint (b64_of 7205759403792794 (-54)) (py wall_query)].
(* 0.3 m ahead and 0.4 m to the left *)
Definition left64 (k : Z) : b64 := b64_of (k - 17 * 2 ^ 48) (-48).
Definition speck_scan : scan b64 := at_pose 10 17 (map (fun k => mkPoint (b64_of 5404319552844595 (-54)) (left64 k))
  [4897664597580164; 4897664603209663; 4897664594765414; 4897664589135914; 4897664594765414]%Z).
Definition speck_probe : scan b64 := at_pose 10 17 [mkPoint (b64_of (5804014019773726 - 10 * 2 ^ 49) (-49)) (left64 4897664594765414)].

Definition low (lm : libm) (b : b64) (s probe : scan b64) : bool :=
  match add_scans (A := BA (easy lm)) eig64 matcher64 [s] with
  | Ok m => match k_ndt m, s_pts probe with
    | Some g, [q0] => let q := iso_apply (A := BA (easy lm)) (s_pose probe) q0 in
      match ndt_index (A := BA (easy lm)) g (px q) (py q) with
      | Ok i => match vec_get (g_cells g) i with
        | Ok c => (0 <=? i)%Z && negb (Bltb (c_n c) (b64_of 5 0)) && is_finite (exponent_of c q) && Bleb b (exponent_of c q)
        | _ => false end
      | _ => false end
    | _, _ => false end
  | _ => false end.

Lemma wall_low (lm : libm) : low lm (b64_of 1 (-1)) wall_scan wall_probe = true.
Proof. vm_compute. reflexivity. Qed.
Lemma speck_low (lm : libm) : low lm (b64_of 1000 0) speck_scan speck_probe = true.
Proof. vm_compute. reflexivity. Qed.

Lemma one_point_score (lm : libm) (m : matcher b64) (g : ndt b64) (q0 : point b64) (p : pose b64) (l : b64) :
  k_beams m = 100%Z -> k_ndt m = Some g -> ndt_likelihood (A := BA lm) g (iso_apply (A := BA lm) p q0) = Ok l ->
  score_points (A := BA lm) m [q0] p = Ok (Bdiv mode_NE (Bplus mode_NE (b64_of 0 0) (Bopp l)) (b64_of 1 0)).
Proof.
  intros Hb Hg Hl. unfold score_points. rewrite Hg.
  assert (U : beams_used m [q0] = 1%Z) by (unfold beams_used; rewrite Hb; reflexivity).
  assert (B : beam_index (A := BA lm) (scan_step_size (A := BA lm) m [q0]) 0 = Ok 0%Z).
  { unfold beam_index, scan_step_size. rewrite U. vm_compute. reflexivity. }
  cbv zeta. rewrite U. change (map Z.of_nat (seq 0 (Z.to_nat 1))) with [0%Z]. cbn [foldM]. rewrite B. cbn [bind].
  change (vec_get [q0] 0) with (Ok q0). cbn [bind]. rewrite Hl. reflexivity.
Qed.

Lemma negated_below (e : b64) : Bltb (b64_of 1 0) e = true ->
  Bltb (Bdiv mode_NE (Bplus mode_NE (b64_of 0 0) (Bopp e)) (b64_of 1 0)) (b64_of (-1) 0) = true.
Proof.
  intros H. destruct (is_finite e) eqn:F.
  - destruct (b64_ofZ 1 ltac:(lia)) as [E1 F1]. destruct (b64_ofZ (-1) ltac:(lia)) as [E2 F2]. destruct b64_zero as [E0 F0].
    rewrite Bltb_correct in H by assumption. rewrite E1 in H. destruct (Rlt_bool_spec 1 (B2R e)) as [H1|]; [clear H|discriminate H].
    assert (Fo : is_finite (Bopp e) = true) by (rewrite is_finite_Bopp; exact F).
    assert (Vs : B2R (Bplus mode_NE (b64_of 0 0) (Bopp e)) = - B2R e /\ is_finite (Bplus mode_NE (b64_of 0 0) (Bopp e)) = true).
    { pose proof (Bplus_correct 53 1024 _ _ mode_NE (b64_of 0 0) (Bopp e) F0 Fo) as K. cbv zeta in K.
      rewrite E0, Rplus_0_l, B2R_Bopp in K. fold (rnd (- B2R e)) in K.
      change (round radix2 (SpecFloat.fexp 53 1024) (round_mode mode_NE) (- B2R e)) with (rnd (- B2R e)) in K.
      rewrite (rnd_fmt (- B2R e)) in K by (apply fmt_opp, fmt_b64).
      rewrite Rlt_bool_true in K by (rewrite Rabs_Ropp; apply abs_B2R_lt_emax). destruct K as (K1 & K2 & _). split; assumption. }
    destruct Vs as [Vs Fs].
    assert (Vd : B2R (Bdiv mode_NE (Bplus mode_NE (b64_of 0 0) (Bopp e)) (b64_of 1 0)) = - B2R e /\
                 is_finite (Bdiv mode_NE (Bplus mode_NE (b64_of 0 0) (Bopp e)) (b64_of 1 0)) = true).
    { assert (N0 : B2R (b64_of 1 0) <> 0) by (rewrite E1; lra).
      pose proof (Bdiv_correct 53 1024 _ _ mode_NE (Bplus mode_NE (b64_of 0 0) (Bopp e)) (b64_of 1 0) N0) as K. cbv zeta in K.
      rewrite Vs, E1 in K. replace (- B2R e / 1) with (- B2R e) in K by field.
      change (round radix2 (SpecFloat.fexp 53 1024) (round_mode mode_NE) (- B2R e)) with (rnd (- B2R e)) in K.
      rewrite (rnd_fmt (- B2R e)) in K by (apply fmt_opp, fmt_b64).
      rewrite Rlt_bool_true in K by (rewrite Rabs_Ropp; apply abs_B2R_lt_emax). destruct K as (K1 & K2 & _). rewrite K2, Fs. split; [exact K1|reflexivity]. }
    destruct Vd as [Vd Fd]. rewrite Bltb_correct by assumption. rewrite Vd, E2. apply Rlt_bool_true. lra.
  - destruct e as [s|s| |s m x h]; try discriminate F; [|discriminate H]. destruct s; [discriminate H|]. reflexivity.
Qed.

Lemma low_sound (lm : libm) (b : b64) (s probe : scan b64) : is_finite b = true -> low lm b s probe = true ->
  exists m x, add_scans (A := BA (easy lm)) eig64 matcher64 [s] = Ok m /\ is_finite x = true /\ B2R b <= B2R x /\
    score_scan (A := BA (easy lm)) m probe = Ok (Bdiv mode_NE (Bplus mode_NE (b64_of 0 0) (Bopp (lm_exp (easy lm) x))) (b64_of 1 0)).
Proof.
  intros Fb H. unfold low in H. destruct (add_scans (A := BA (easy lm)) eig64 matcher64 [s]) as [m|] eqn:Ad; [|discriminate H].
  destruct (k_ndt m) as [g|] eqn:Hg; [|discriminate H]. destruct (s_pts probe) as [|q0 [|q1 l]] eqn:Hp; try discriminate H. cbv zeta in H.
  destruct (ndt_index (A := BA (easy lm)) g (px (iso_apply (A := BA (easy lm)) (s_pose probe) q0)) (py (iso_apply (A := BA (easy lm)) (s_pose probe) q0))) as [i|] eqn:Hi; [|discriminate H].
  destruct (vec_get (g_cells g) i) as [c|] eqn:Hc; [|discriminate H]. rewrite !andb_true_iff in H. destruct H as (((H1 & H2) & H3) & H4).
  apply negb_true_iff in H2. rewrite Bleb_correct in H4 by assumption. apply Rle_bool_iff in H4.
  exists m, (exponent_of c (iso_apply (A := BA (easy lm)) (s_pose probe) q0)). split; [reflexivity|]. split; [exact H3|]. split; [exact H4|].
  unfold score_scan. rewrite Hp. apply one_point_score with (g := g); [|exact Hg|].
  - apply add_scans_run in Ad. cbv zeta in Ad. destruct Ad as (g0 & g' & _ & _ & ->). reflexivity.
  - unfold ndt_likelihood. rewrite Hi. cbn [bind]. rewrite H1, Hc. cbn [bind]. f_equal. apply score_exponent. exact H2.
Qed.

Lemma easy_exp (lm : libm) (x : b64) : is_finite x = true -> / 2 <= B2R x -> lm_exp (easy lm) x = lm_exp lm x.
Proof.
  intros F H. cbn [lm_exp easy]. destruct x as [s| | |s m e h]; try discriminate F; [cbn in H; lra|reflexivity].
Qed.

Lemma eig64_diagonal : diagonal_eigenvalues eig64.
Proof. intros a d. unfold eig64. cbn [m00 m11]. destruct (Bltb a d); [left|right]; reflexivity. Qed.

(** C120: false as stated.  A map of one scan of a wall 0.4 m in front of the
    robot, 115.4 m from the origin: a point 25 cm along the wall scores below -1.
    A map of five points within 50 nm of each other: a point one centimetre away
    scores minus infinity.  ([easy] fixes cos 0 = 1 and sin 0 = 0.) *)
Theorem C120_scores_refuted : forall lm : libm,
  diagonal_eigenvalues eig64 /\
  (exp_grows lm -> exists m v, add_scans (A := BA (easy lm)) eig64 matcher64 [wall_scan] = Ok m /\
     score_scan (A := BA (easy lm)) m wall_probe = Ok v /\ Bltb v (b64_of (-1) 0) = true) /\
  (exp_saturates lm -> exists m, add_scans (A := BA (easy lm)) eig64 matcher64 [speck_scan] = Ok m /\
     score_scan (A := BA (easy lm)) m speck_probe = Ok (Bopp b64_inf)).
Proof.
  intros lm. split; [apply eig64_diagonal|]. split.
  - intros Hg. destruct (low_sound lm (b64_of 1 (-1)) wall_scan wall_probe eq_refl (wall_low lm)) as (m & x & H1 & H2 & H3 & H4).
    rewrite half_val in H3. rewrite easy_exp in H4 by assumption. eexists m, _. split; [exact H1|]. split; [exact H4|].
    apply negated_below, Hg; assumption.
  - intros Hs. destruct (low_sound lm (b64_of 1000 0) speck_scan speck_probe eq_refl (speck_low lm)) as (m & x & H1 & H2 & H3 & H4).
    rewrite (proj1 (b64_ofZ 1000 ltac:(lia))) in H3. rewrite easy_exp in H4 by (assumption || lra). rewrite (Hs x H2 H3) in H4.
    exists m. split; [exact H1|]. rewrite H4. f_equal.
Qed.
Print Assumptions C120_scores_refuted.

(** The cross: every hypothesis of the partial theorem holds of its map. *)
Definition cross_scan : scan b64 := at_pose 0 0 cross64.

Lemma point64_eq (p q : point b64) : B2SF (px p) = B2SF (px q) -> B2SF (py p) = B2SF (py q) -> p = q.
Proof. destruct p as [a b], q as [c d]. cbn [px py]. intros H1 H2. f_equal; apply b64_eq; assumption. Qed.

Lemma cons_eq {X} (x y : X) (l k : list X) : x = y -> l = k -> x :: l = y :: k.
Proof. intros -> ->. reflexivity. Qed.

Lemma cross_moved (lm : libm) : moved64 (easy lm) [cross_scan] = cross64.
Proof.
  unfold moved64. cbn [flat_map]. rewrite app_nil_r. change (s_pts cross_scan) with cross64. unfold cross64. cbn [map].
  repeat (apply cons_eq; [apply point64_eq; vm_compute; reflexivity|]). reflexivity.
Qed.

Definition cross_ok (lm : libm) : bool :=
  match add_scans (A := BA (easy lm)) eig_ad matcher64 [cross_scan] with
  | Ok m => match k_ndt m with
    | Some g => forallb (fun p => match ndt_index (A := BA (easy lm)) g (px p) (py p) with Ok i => (i =? 0)%Z | _ => false end) cross64 &&
        (g_sx g * g_sy g <? 2 ^ 31)%Z && (is_finite (g_cs g) && is_finite (g_ox g) && is_finite (g_oy g)) &&
        Beqb (g_cs g) (b64_of 4 0) && Beqb (g_ox g) (b64_of (-2) 0) && Beqb (g_oy g) (b64_of (-2) 0)
    | None => false end
  | _ => false end.
Lemma cross_ok_true (lm : libm) : cross_ok lm = true.
Proof. vm_compute. reflexivity. Qed.

Lemma beqb_val (x : b64) (z : Z) : (Z.abs z <= 2 ^ 53)%Z -> is_finite x = true -> Beqb x (b64_of z 0) = true -> B2R x = IZR z.
Proof.
  intros Hz F H. destruct (b64_ofZ z Hz) as [E Fz]. rewrite Beqb_correct, E in H by assumption.
  destruct (Req_bool_spec (B2R x) (IZR z)); [assumption|discriminate H].
Qed.

Example C120_nonvacuous (lm : libm) :
  let lm := easy (step_libm lm) in
  exp_unit lm /\ sane_eigenvalues eig_ad /\
  exists m g, add_scans (A := BA lm) eig_ad matcher64 [cross_scan] = Ok m /\ k_ndt m = Some g /\ (g_sx g * g_sy g < 2 ^ 31)%Z /\
    moderate_grid g /\ Forall (coordinates_within 1) (moved64 lm [cross_scan]) /\ spread_in_cells lm 1 g (moved64 lm [cross_scan]) /\
    INR (length (moved64 lm [cross_scan])) <= 2 ^ 40.
Proof.
  intros lm'. split; [|split; [apply eig_ad_sane|]].
  { intros x F H. unfold lm'. cbn [lm_exp easy]. destruct (is0 x).
    - unfold z64. destruct (b64_ofZ 1 ltac:(lia)) as [E1 F1]. rewrite E1. split; [exact F1|lra].
    - apply step_unit; assumption. }
  unfold lm'. clear lm'. rewrite cross_moved. pose proof (cross_ok_true (step_libm lm)) as H. unfold cross_ok in H.
  destruct (add_scans (A := BA (easy (step_libm lm))) eig_ad matcher64 [cross_scan]) as [m|]; [|discriminate H].
  destruct (k_ndt m) as [g|] eqn:Hg; [|discriminate H]. rewrite !andb_true_iff in H.
  destruct H as (((((H1 & H2) & ((F1 & F2) & F3)) & H3) & H4) & H5).
  exists m, g. split; [reflexivity|]. split; [exact Hg|]. split; [apply Z.ltb_lt, H2|]. split; [|split; [apply cross_within|split]].
  - assert (B4 : 4 <= bpow radix2 60) by (apply (bpow_le radix2 2 60); lia).
    assert (B0 : bpow radix2 (-60) <= 1) by (apply (bpow_le radix2 (-60) 0); lia).
    apply beqb_val in H3; [|lia|exact F1]. apply beqb_val in H4; [|lia|exact F2]. apply beqb_val in H5; [|lia|exact F3].
    split; [exact F1|]. split; [rewrite H3; lra|]. split; [exact F2|].
    split; [rewrite H4; apply Rabs_le; lra|]. split; [exact F3|]. rewrite H5; apply Rabs_le; lra.
  - assert (MB : forall k, members64 (easy (step_libm lm)) g k cross64 = if (k =? 0)%nat then cross64 else []).
    { intros k. unfold members64. rewrite forallb_forall in H1.
      assert (Q : forall l, (forall p, In p l -> In p cross64) ->
         filter (fun p => match ndt_index (A := BA (easy (step_libm lm))) g (px p) (py p) with Ok i => (i =? Z.of_nat k)%Z | Fault _ => false end) l =
         if (k =? 0)%nat then l else []); [|apply Q; trivial].
      induction l as [|p l IH]; intros Hl; cbn [filter]; [destruct (k =? 0)%nat; reflexivity|].
      rewrite IH by (intros p' Hp'; apply Hl; right; exact Hp').
      specialize (H1 p (Hl p (or_introl eq_refl))). destruct (ndt_index (A := BA (easy (step_libm lm))) g (px p) (py p)) as [i|]; [|discriminate H1].
      apply Z.eqb_eq in H1. subst i. destruct k as [|k]; [reflexivity|]. destruct (0 =? Z.of_nat (S k))%Z eqn:E; [apply Z.eqb_eq in E; lia|reflexivity]. }
    intros k. rewrite MB. destruct (k =? 0)%nat; [right|left; cbn; lia].
    exists (1 / 2). split; [apply cross_spread|]. change (length cross64) with 5%nat. apply cross_guard.
  - change (length cross64) with 5%nat. cbn. lra.
Qed.
