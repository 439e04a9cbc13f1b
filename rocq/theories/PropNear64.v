(** C183: findNearest in double arithmetic. *)

From Coq Require Import ZArith Reals List Bool Sorted String Lia Lra.
From Flocq Require Import Core BinarySingleNaN.
From Verif Require Import Outcome Arith TypesModel ScanModel ConstraintModel GraphModel FilterModel LaserModel MapperModel SpecGraph SpecMapper SpecMapper2
  GraphProofs B64Lemmas CellB64 OccB64 MapperInv2 MapperWitness2 SpecNan SpecNear64.
Import ListNotations.
Local Open Scope R_scope.

Lemma powers : let s := bpow radix2 (-620) in
  0 < s /\ s <= 1 /\ eta64 <= s /\ 5 * eta64 * (2 * bpow radix2 400) <= s /\ 10 * s <= bpow radix2 (-600) /\ 8 * u64 = bpow radix2 (-50).
Proof.
  cbv zeta. split; [apply bpow_gt_0|]. split; [apply (bpow_le radix2 (-620) 0); lia|]. unfold eta64, u64. split; [apply bpow_le; lia|]. split; [|split].
  - apply Rle_trans with (bpow radix2 4 * bpow radix2 (-1075) * bpow radix2 400).
    + change (bpow radix2 4) with 16. pose proof (bpow_gt_0 radix2 (-1075)). pose proof (bpow_gt_0 radix2 400).
      assert (0 < bpow radix2 (-1075) * bpow radix2 400) by (apply Rmult_lt_0_compat; assumption). nra.
    + rewrite <- !bpow_plus. apply bpow_le. lia.
  - apply Rle_trans with (bpow radix2 4 * bpow radix2 (-620)).
    + change (bpow radix2 4) with 16. pose proof (bpow_gt_0 radix2 (-620)). lra.
    + rewrite <- bpow_plus. apply bpow_le. lia.
  - change 8 with (bpow radix2 3). rewrite <- bpow_plus. reflexivity.
Qed.

(** One coordinate: the rounded square of the rounded difference. *)
Lemma coordinate_sq : forall x y : b64, is_finite x = true -> is_finite y = true -> Rabs (B2R x) <= bpow radix2 400 -> Rabs (B2R y) <= bpow radix2 400 ->
  let d := B2R x - B2R y in let c := Bmult mode_NE (Bminus mode_NE x y) (Bminus mode_NE x y) in
  is_finite c = true /\ Rabs (B2R c - d * d) <= 5 * u64 * (d * d) + 2 * bpow radix2 (-620) /\ d * d <= bpow radix2 802.
Proof.
  intros x y Fx Fy Bx By d c. destruct powers as (S0 & S1 & Se & S5 & _ & _). set (s := bpow radix2 (-620)) in *.
  set (M := bpow radix2 400) in *. assert (M0 : 0 < M) by apply bpow_gt_0.
  assert (Bd : Rabs d <= 2 * M).
  { unfold d. eapply Rle_trans; [apply Rabs_triang|]. rewrite Rabs_Ropp. lra. }
  assert (P1 : 2 * M <= bpow radix2 401) by (unfold M; change 2 with (bpow radix2 1); rewrite <- bpow_plus; apply bpow_le; lia).
  destruct (b64_sub_ok x y Fx Fy) as [Ea Fa].
  { fold d. eapply Rle_trans; [exact Bd|]. eapply Rle_trans; [exact P1|]. apply bpow_le; lia. }
  fold d in Ea. set (a := B2R (Bminus mode_NE x y)) in *. pose proof (rnd_err d) as Ee. rewrite <- Ea in Ee.
  pose proof u64_pos as U0. pose proof u64_small as U1. pose proof eta64_pos as H0.
  assert (D0 : 0 <= Rabs d) by apply Rabs_pos. set (t := Rabs d) in *.
  assert (Dt : d * d = t * t) by (unfold t; rewrite <- Rabs_mult; symmetry; apply Rabs_pos_eq; nra).
  assert (Eu : u64 * t <= t) by nra.
  assert (Ba : Rabs (a + d) <= 2 * t + (u64 * t + eta64)).
  { replace (a + d) with ((a - d) + 2 * d) by ring. eapply Rle_trans; [apply Rabs_triang|]. rewrite Rabs_mult, (Rabs_pos_eq 2) by lra. fold t. lra. }
  assert (Hm : eta64 * t <= s / 5).
  { assert (eta64 * t <= eta64 * (2 * M)) by (apply Rmult_le_compat_l; lra). lra. }
  assert (T2 : 0 <= t * t) by nra.
  assert (E2 : Rabs (a * a - d * d) <= 3 * u64 * (t * t) + s).
  { replace (a * a - d * d) with ((a - d) * (a + d)) by ring. rewrite Rabs_mult.
    apply Rle_trans with ((u64 * t + eta64) * (2 * t + (u64 * t + eta64))).
    - apply Rmult_le_compat; try apply Rabs_pos; assumption.
    - assert (He : eta64 * eta64 <= s / 100).
      { assert (eta64 <= / 1000000). { unfold eta64. apply Rle_trans with (bpow radix2 (-20)); [apply bpow_le; lia|cbn; lra]. } nra. }
      assert (Hu : u64 * (eta64 * t) <= s / 100) by nra.
      assert (Huu : u64 * u64 * (t * t) <= u64 * (t * t)).
      { apply Rmult_le_compat_r; [exact T2|]. nra. }
      nra. }
  assert (Ha : a * a <= (1 + 3 * u64) * (t * t) + s).
  { apply Rabs_le_inv in E2. rewrite Dt in E2. nra. }
  assert (A0 : 0 <= a * a) by nra.
  assert (T3 : t * t <= bpow radix2 802).
  { replace 802%Z with (401 + 401)%Z by lia. rewrite bpow_plus. apply Rmult_le_compat; lra. }
  assert (Big : (1 + 3 * u64) * (t * t) + s <= bpow radix2 1023).
  { assert (2 * bpow radix2 802 + 1 <= bpow radix2 1023).
    { apply Rle_trans with (bpow radix2 2 * bpow radix2 802).
      - change (bpow radix2 2) with 4. pose proof (bpow_le radix2 0 802 ltac:(lia)) as L. change (bpow radix2 0) with 1 in L. lra.
      - rewrite <- bpow_plus. apply bpow_le; lia. }
    nra. }
  destruct (b64_mul_ok _ _ Fa Fa) as [Eb Fb].
  { fold a. rewrite Rabs_pos_eq by exact A0. lra. }
  fold a c in Eb. fold c in Fb. split; [exact Fb|]. split; [|rewrite Dt; exact T3].
  pose proof (rnd_err (a * a)) as Er. rewrite <- Eb in Er. rewrite (Rabs_pos_eq (a * a)) in Er by exact A0.
  rewrite Dt in *. replace (B2R c - t * t) with ((B2R c - a * a) + (a * a - t * t)) by ring.
  eapply Rle_trans; [apply Rabs_triang|].
  assert (UT : 0 <= u64 * (t * t)) by nra.
  assert (UU : u64 * (u64 * (t * t)) <= / 6 * (u64 * (t * t))) by (apply Rmult_le_compat_r; lra).
  assert (US : u64 * s <= / 4 * s) by (apply Rmult_le_compat_r; lra).
  assert (u64 * (a * a) <= u64 * (t * t) + / 2 * (u64 * (t * t)) + s / 4).
  { apply Rle_trans with (u64 * ((1 + 3 * u64) * (t * t) + s)); [apply Rmult_le_compat_l; lra|].
    replace (u64 * ((1 + 3 * u64) * (t * t) + s)) with (u64 * (t * t) + 3 * (u64 * (u64 * (t * t))) + u64 * s) by ring. lra. }
  assert (eta64 <= s / 4).
  { unfold eta64, s. apply Rle_trans with (bpow radix2 (-622)); [apply bpow_le; lia|]. replace (-620)%Z with (-622 + 2)%Z by lia. rewrite bpow_plus. change (bpow radix2 2) with 4. lra. }
  lra.
Qed.

Lemma computed_near : forall p q : pose b64, in_size p -> in_size q ->
  let c := computed_sq (mkPoint (pox p) (poy p)) (mkPoint (pox q) (poy q)) in
  is_finite c = true /\ at_least (true_sq p q) <= B2R c <= at_most (true_sq p q).
Proof.
  intros p q (Fx & Fy & Bx & By) (Gx & Gy & Cx & Cy) c. destruct powers as (S0 & S1 & Se & _ & S10 & U8).
  destruct (coordinate_sq _ _ Fx Gx Bx Cx) as (F1 & E1 & M1). destruct (coordinate_sq _ _ Fy Gy By Cy) as (F2 & E2 & M2).
  unfold c, computed_sq. cbn [px py]. cbv zeta in *.
  set (d1 := B2R (pox p) - B2R (pox q)) in *. set (d2 := B2R (poy p) - B2R (poy q)) in *.
  set (c1 := Bmult mode_NE (Bminus mode_NE (pox p) (pox q)) _) in *. set (c2 := Bmult mode_NE (Bminus mode_NE (poy p) (poy q)) _) in *.
  set (s := bpow radix2 (-620)) in *. pose proof u64_pos as U0. pose proof u64_small as U1.
  assert (D1 : 0 <= d1 * d1) by nra. assert (D2 : 0 <= d2 * d2) by nra.
  unfold at_least, at_most, true_sq. fold d1 d2. rewrite <- U8.
  set (X := d1 * d1) in *. set (Y := d2 * d2) in *.
  assert (Es : Rabs ((B2R c1 + B2R c2) - (X + Y)) <= 5 * u64 * (X + Y) + 4 * s).
  { replace (B2R c1 + B2R c2 - (X + Y)) with ((B2R c1 - X) + (B2R c2 - Y)) by ring. eapply Rle_trans; [apply Rabs_triang|]. lra. }
  assert (As : Rabs (B2R c1 + B2R c2) <= (1 + 5 * u64) * (X + Y) + 4 * s).
  { replace (B2R c1 + B2R c2) with (((B2R c1 + B2R c2) - (X + Y)) + (X + Y)) by ring. eapply Rle_trans; [apply Rabs_triang|].
    rewrite (Rabs_pos_eq (X + Y)) by lra. lra. }
  assert (Big : (1 + 5 * u64) * (X + Y) + 4 * s <= bpow radix2 1023).
  { assert (8 * bpow radix2 802 + 4 <= bpow radix2 1023).
    { apply Rle_trans with (bpow radix2 4 * bpow radix2 802).
      - change (bpow radix2 4) with 16. pose proof (bpow_le radix2 0 802 ltac:(lia)) as L. change (bpow radix2 0) with 1 in L. lra.
      - rewrite <- bpow_plus. apply bpow_le; lia. }
    nra. }
  destruct (b64_add_ok c1 c2 F1 F2) as [Ec Fc]; [lra|]. split; [exact Fc|].
  pose proof (rnd_err (B2R c1 + B2R c2)) as Er. rewrite <- Ec in Er.
  assert (u64 * Rabs (B2R c1 + B2R c2) <= u64 * ((1 + 5 * u64) * (X + Y) + 4 * s)) by (apply Rmult_le_compat_l; lra).
  assert (UT : 0 <= u64 * (X + Y)) by (apply Rmult_le_pos; lra).
  assert (UU : u64 * (u64 * (X + Y)) <= / 5 * (u64 * (X + Y))) by (apply Rmult_le_compat_r; lra).
  assert (US : u64 * s <= / 4 * s) by (apply Rmult_le_compat_r; lra).
  assert (u64 * ((1 + 5 * u64) * (X + Y) + 4 * s) <= 2 * u64 * (X + Y) + s).
  { replace (u64 * ((1 + 5 * u64) * (X + Y) + 4 * s)) with (u64 * (X + Y) + 5 * (u64 * (u64 * (X + Y))) + 4 * (u64 * s)) by ring. lra. }
  apply Rabs_le_inv in Es. apply Rabs_le_inv in Er. split; lra.
Qed.

Section Near.
Context (lm : libm) (tol : R) (search : list (point b64) -> point b64 -> b64 -> list nat) (tol0 : 0 <= tol) (contract : radius_contract64 tol search).

Theorem C183_find_nearest_doubles : forall (g : graph b64) s dist limit r,
  find_nearest (A := BA lm) search g s dist limit = Ok r -> is_finite dist = true ->
  (forall sc, In sc (gr_scans g) -> in_size (placed lm (gr_use_bary g) sc)) -> in_size (placed lm (gr_use_bary g) s) ->
  let gap i := match nth_error (gr_scans g) i with Some sc => true_sq (placed lm (gr_use_bary g) sc) (placed lm (gr_use_bary g) s) | None => 0 end in
  NoDup r /\
  (forall i, In i r -> below_limit (List.length (gr_scans g)) limit i /\ at_least (gap i) < B2R dist) /\
  (forall i, below_limit (List.length (gr_scans g)) limit i -> (1 + tol) * at_most (gap i) < B2R dist -> In i r) /\
  StronglySorted (fun i j => at_least (gap i) <= at_most (gap j)) r.
Proof.
  intros g s dist limit r H Fd Sz Szs gap. rewrite find_nearest_defined in H.
  destruct (Z.ltb_spec (Z.of_nat (List.length (gr_scans g))) limit) as [L|L]; [discriminate|].
  set (n := limit_of g limit) in *. set (pts := map _ _) in H.
  assert (Pq : scan_position (A := BA lm) (gr_use_bary g) s = mkPoint (pox (placed lm (gr_use_bary g) s)) (poy (placed lm (gr_use_bary g) s))) by reflexivity.
  rewrite Pq in H. set (ps := placed lm (gr_use_bary g) s) in *. set (q := mkPoint (pox ps) (poy ps)) in *.
  injection H as <-. destruct (contract pts q dist) as (C1 & C2 & C3 & C4).
  assert (LN : (n <= List.length (gr_scans g))%nat /\ (forall i, (i < n)%nat <-> below_limit (List.length (gr_scans g)) limit i)).
  { unfold n, limit_of, below_limit. destruct (Z.ltb_spec 0 limit); split; try lia; intro i; split; lia. }
  destruct LN as (LN1 & LN2).
  assert (NTH : forall i p, nth_error pts i = Some p <->
     below_limit (List.length (gr_scans g)) limit i /\ exists sc, nth_error (gr_scans g) i = Some sc /\
       p = mkPoint (pox (placed lm (gr_use_bary g) sc)) (poy (placed lm (gr_use_bary g) sc))).
  { intros i p. unfold pts. rewrite nth_error_map. rewrite <- LN2.
    destruct (Nat.lt_ge_cases i n) as [I|I].
    - assert (F : nth_error (firstn n (gr_scans g)) i = nth_error (gr_scans g) i).
      { rewrite <- (firstn_skipn n (gr_scans g)) at 2. rewrite nth_error_app1; [reflexivity|]. rewrite firstn_length. lia. }
      rewrite F. destruct (nth_error (gr_scans g) i) as [sc|]; cbn.
      + split; [intro E; injection E as <-; split; [exact I|exists sc; split; reflexivity]|].
        intros (_ & sc' & E & ->). injection E as <-. reflexivity.
      + split; [discriminate|]. intros (_ & sc & E & _). discriminate.
    - assert (F : nth_error (firstn n (gr_scans g)) i = None).
      { apply nth_error_None. rewrite firstn_length. lia. }
      rewrite F. cbn. split; [discriminate|]. intros (E & _). lia. }
  assert (Cmp : forall i p, nth_error pts i = Some p -> is_finite (computed_sq p q) = true /\ at_least (gap i) <= B2R (computed_sq p q) <= at_most (gap i)).
  { intros i p P. apply NTH in P. destruct P as (_ & sc & E & ->). unfold gap. rewrite E.
    apply computed_near; [apply Sz; eapply nth_error_In; exact E|exact Szs]. }
  split; [exact C1|]. split; [|split].
  - intros i I. destruct (C2 i I) as (p & P & Lt). destruct (Cmp i p P) as (Fp & Lo & Hi). split; [apply (proj1 (NTH i p) P)|].
    eapply Rle_lt_trans; [exact Lo|]. apply Bltb_true; assumption.
  - intros i B Lt. assert (exists p, nth_error pts i = Some p) as [p P].
    { assert (i < List.length (gr_scans g))%nat by (apply B). destruct (nth_error (gr_scans g) i) as [sc|] eqn:E.
      - eexists. apply NTH. split; [exact B|]. exists sc. split; [exact E|reflexivity].
      - apply nth_error_None in E. lia. }
    destruct (Cmp i p P) as (Fp & Lo & Hi). apply (C3 i p P Fp Fd). eapply Rle_lt_trans; [|exact Lt].
    apply Rmult_le_compat_l; [lra|exact Hi].
  - assert (IN : forall i, In i (search pts q dist) -> exists p, nth_error pts i = Some p).
    { intros i I. destruct (C2 i I) as (p & P & _). eauto. }
    revert C4 IN. generalize (search pts q dist) as l. induction l as [|x l IH]; intros C4 IN; [constructor|].
    inversion C4 as [|? ? S1 S2]; subst. constructor.
    + apply IH; [exact S1|]. intros i I. apply IN. right. exact I.
    + rewrite Forall_forall in *. intros y Hy. destruct (IN x (or_introl eq_refl)) as (p & P). destruct (IN y (or_intror Hy)) as (p' & P').
      destruct (Cmp x p P) as (Fp & Lo & _). destruct (Cmp y p' P') as (Fp' & _ & Hi).
      pose proof (Bltb_false _ _ Fp' Fp (S2 y Hy p p' P P')) as Le. lra.
Qed.
End Near.
Print Assumptions C183_find_nearest_doubles.

(** An initial pose while mapping: refused unless it is within sqrt 10 m of a scan, and
    connected to a nearest one, up to rounding. *)
Theorem C183_initial_pose_doubles : forall (lm : libm) (tol : R) (cf : config b64) m e t g, 0 <= tol ->
  radius_contract64 tol (en_search cf) -> cf_use_bary cf = false ->
  sp_pc (mp_spin m) = SIdle -> sh_glock (mp_sh m) = None -> sh_enable (mp_sh m) = true -> sh_init (mp_sh m) = false ->
  pe_frame e = "map"%string -> pe_odom e = Some t -> sp_filter (mp_spin m) = None -> the_graph cf (mp_sh m) = Ok g ->
  (forall sc, In sc (gr_scans g) -> in_size (s_pose sc)) -> in_size (from_msg (A := BA lm) (pe_pose e)) ->
  let P := from_msg (A := BA lm) (pe_pose e) in
  (exists m2, exec (A := BA lm) cf m [Deliver (EvPose e); Spin; Spin] = Ok m2 /\ ~ busy (mp_spin m2) /\
     (forall sc, In sc (gr_scans g) -> 10 <= (1 + tol) * at_most (true_sq (s_pose sc) P)) /\
     same_graph (mp_sh m) (mp_sh m2) /\ same_poses (mp_sh m) (mp_sh m2) /\ sh_init (mp_sh m2) = false) \/
  (exists m2 from sc, exec (A := BA lm) cf m [Deliver (EvPose e); Spin; Spin; Spin; Spin; Spin] = Ok m2 /\ ~ busy (mp_spin m2) /\
     In from (gr_scans g) /\ at_least (true_sq (s_pose from) P) < 10 /\
     (forall other, In other (gr_scans g) -> at_least (true_sq (s_pose from) P) <= (1 + tol) * at_most (true_sq (s_pose other) P)) /\
     s_pose sc = P /\ s_pts sc = [] /\
     the_graph cf (mp_sh m2) = Ok (mkGraph (gr_use_bary g) (gr_scans g ++ [sc])
       (gr_constraints g ++ [make_constraint (A := BA lm) from sc (diag3 (A := BA lm) (pe_c0 e) (pe_c7 e) (pe_c35 e))])) /\
     sh_robot (mp_sh m2) = P /\ sh_odom (mp_sh m2) = from_msg (A := BA lm) t /\ sh_init (mp_sh m2) = true).
Proof.
  intros lm tol cf m e t g T0 C Ub I G En In_ F O N Gr Sz SzP P.
  assert (Gb : gr_use_bary g = false).
  { unfold the_graph in Gr. destruct (graph_scans (mp_sh m)); [|discriminate Gr]. injection Gr as <-. exact Ub. }
  set (sc := scan_set_pose (scan_new (A := BA lm) (num_scans (mp_sh m))) P).
  destruct (find_nearest (A := BA lm) (en_search cf) g sc (nofZ (Arith := BA lm) 10) (-1)) as [near|f] eqn:Ne.
  2:{ rewrite find_nearest_defined in Ne. destruct (Z.ltb_spec (Z.of_nat (List.length (gr_scans g))) (-1)); [lia|discriminate Ne]. }
  destruct (b64_ofZ 10 ltac:(lia)) as [V10 F10].
  pose proof (C183_find_nearest_doubles lm tol (en_search cf) T0 C g sc (nofZ (Arith := BA lm) 10) (-1) near Ne F10) as K.
  rewrite Gb in K. cbn [placed] in K. specialize (K Sz SzP). cbv zeta in K.
  change (B2R (nofZ 10)) with (B2R (b64_of 10 0)) in K. rewrite V10 in K.
  change (s_pose sc) with P in K. destruct K as (_ & K1 & K2 & K3).
  assert (Bl : forall i, (i < List.length (gr_scans g))%nat -> below_limit (List.length (gr_scans g)) (-1) i).
  { intros i L. split; [exact L|]. intro Q. exfalso. lia. }
  assert (Far : forall i a, nth_error (gr_scans g) i = Some a -> ~ In i near -> 10 <= (1 + tol) * at_most (true_sq (s_pose a) P)).
  { intros i a E Ni. apply Rnot_lt_le. intro L. apply Ni. apply K2.
    - apply Bl. apply nth_error_Some. rewrite E. discriminate.
    - rewrite E. exact L. }
  destruct (pose_connects (A := BA lm) cf m e t g near I G En In_ F O N Gr Ne) as [Rej Acc].
  destruct near as [|i rest].
  - left. destruct (Rej eq_refl) as (m2 & E & B & R1 & R2 & R3). exists m2. split; [exact E|]. split; [exact B|]. split; [|split; [exact R1|split; [exact R2|exact R3]]].
    intros a Ia. apply In_nth_error in Ia. destruct Ia as (k & Ek). apply (Far k a Ek). intros [].
  - right. destruct (K1 i (or_introl eq_refl)) as ([Li _] & Lt).
    destruct (nth_error (gr_scans g) i) as [from|] eqn:E; [|apply nth_error_None in E; lia].
    destruct (Acc i rest from eq_refl E) as (m2 & Ex2 & B & Tg & R1 & R2 & R3).
    exists m2, from, sc. split; [exact Ex2|]. split; [exact B|]. split; [eapply nth_error_In; exact E|]. split; [exact Lt|]. split.
    { intros a Ia. apply In_nth_error in Ia. destruct Ia as (k & Ek).
      assert (At : 0 <= at_most (true_sq (s_pose a) P)).
      { unfold at_most, true_sq. pose proof (bpow_gt_0 radix2 (-50)). pose proof (bpow_gt_0 radix2 (-600)).
        apply Rplus_le_le_0_compat; [apply Rmult_le_pos; [apply Rplus_le_le_0_compat; apply Rle_0_sqr|lra]|lra]. }
      assert (Up : at_most (true_sq (s_pose a) P) <= (1 + tol) * at_most (true_sq (s_pose a) P)).
      { assert (0 <= tol * at_most (true_sq (s_pose a) P)) by (apply Rmult_le_pos; assumption). lra. }
      destruct (in_dec Nat.eq_dec k (i :: rest)) as [[<-|J]|J].
      - rewrite E in Ek. injection Ek as <-. apply Rle_trans with (2 := Up). unfold at_least, at_most. pose proof (bpow_gt_0 radix2 (-50)). pose proof (bpow_gt_0 radix2 (-600)).
        assert (Tq : 0 <= true_sq (s_pose from) P) by (unfold true_sq; apply Rplus_le_le_0_compat; apply Rle_0_sqr).
        assert (0 <= true_sq (s_pose from) P * bpow radix2 (-50)) by (apply Rmult_le_pos; lra). lra.
      - apply StronglySorted_inv in K3. destruct K3 as [_ Fo]. rewrite Forall_forall in Fo. specialize (Fo k J). cbv beta in Fo. rewrite E, Ek in Fo. lra.
      - pose proof (Far k a Ek J). lra. }
    split; [reflexivity|]. split; [reflexivity|]. split; [exact Tg|]. split; [exact R1|]. split; [exact R2|exact R3].
Qed.
Print Assumptions C183_initial_pose_doubles.

(** The search of the examples meets the contract, with nothing lost. *)
Definition rank (x : b64) : R :=
  match x with B754_infinity false => bpow radix2 1024 | B754_infinity true => - bpow radix2 1024 | _ => B2R x end.
Lemma finite_rank : forall x : b64, is_finite x = true -> rank x = B2R x /\ - bpow radix2 1024 < rank x < bpow radix2 1024.
Proof.
  intros x F. assert (E : rank x = B2R x) by (destruct x; try discriminate F; reflexivity). split; [exact E|]. rewrite E.
  apply Rabs_lt_inv. apply abs_B2R_lt_emax.
Qed.
Lemma less_rank : forall x y : b64, is_nan x = false -> is_nan y = false -> (Bltb x y = true <-> rank x < rank y).
Proof.
  intros x y Nx Ny. pose proof (bpow_gt_0 radix2 1024).
  destruct (is_finite x) eqn:Fx; destruct (is_finite y) eqn:Fy.
  - rewrite (proj1 (finite_rank x Fx)), (proj1 (finite_rank y Fy)), Bltb_correct by assumption.
    destruct (Rlt_bool_spec (B2R x) (B2R y)); split; intro; try assumption; try reflexivity; try discriminate; lra.
  - pose proof (proj2 (finite_rank x Fx)). destruct y as [sy|sy| |sy my ey By]; try discriminate Fy; try discriminate Ny.
    destruct x as [sx|sx| |sx mx ex Bx]; try discriminate Fx; destruct sy; cbn [rank] in *; (split; intro K; [try discriminate K; lra|try reflexivity; lra]).
  - pose proof (proj2 (finite_rank y Fy)). destruct x as [sx|sx| |sx mx ex Bx]; try discriminate Fx; try discriminate Nx.
    destruct y as [sy|sy| |sy my ey By]; try discriminate Fy; destruct sx; cbn [rank] in *; (split; intro K; [try discriminate K; lra|try reflexivity; lra]).
  - destruct x as [sx|sx| |sx mx ex Bx]; try discriminate Fx; try discriminate Nx. destruct y as [sy|sy| |sy my ey By]; try discriminate Fy; try discriminate Ny.
    destruct sx, sy; cbn [rank]; (split; intro K; [try discriminate K; lra|try reflexivity; lra]).
Qed.
Lemma leq_less : forall x y : b64, is_nan x = false -> is_nan y = false -> Bleb x y = negb (Bltb y x).
Proof.
  intros x y Nx Ny. unfold Bleb, Bltb, SpecFloat.SFleb, SpecFloat.SFltb. 
  pose proof (Bcompare_swap _ _ x y) as W. unfold Bcompare in W.
  destruct (SpecFloat.SFcompare (B2SF x) (B2SF y)) as [[| |]|] eqn:E; destruct (SpecFloat.SFcompare (B2SF y) (B2SF x)) as [[| |]|] eqn:E'; try discriminate W; try reflexivity.
  exfalso. destruct x, y; try discriminate Nx; try discriminate Ny; cbn in E; repeat match type of E with context [match ?b with _ => _ end] => destruct b end; discriminate E.
Qed.
Lemma less_number : forall x y : b64, Bltb x y = true -> is_nan x = false.
Proof. intros [| | |] y H; try reflexivity. destruct y; discriminate H. Qed.

Lemma insert64_perm : forall f i j l, In j (i :: l) -> In j (insert64 f i l).
Proof.
  intros f i j l. induction l as [|k l IH]; cbn; [tauto|]. destruct (Bleb (f i) (f k)); cbn; [tauto|].
  intros [E|[E|E]]; [right; apply IH; left; exact E|left; exact E|right; apply IH; right; exact E].
Qed.
Lemma insert64_nodup : forall f i l, ~ In i l -> NoDup l -> NoDup (insert64 f i l).
Proof.
  intros f i l. induction l as [|k l IH]; intros Ni Nd; [repeat constructor; intros []|].
  cbn. destruct (Bleb (f i) (f k)); [constructor; assumption|]. inversion Nd; subst. constructor.
  - intro K. apply insert64_in in K. destruct K as [->|K]; [apply Ni; left; reflexivity|contradiction].
  - apply IH; [|assumption]. intro K. apply Ni. right. exact K.
Qed.
Lemma insert64_sorted : forall f i l, (forall j, In j (i :: l) -> is_nan (f j) = false) ->
  StronglySorted (fun a b => Bltb (f b) (f a) = false) l -> StronglySorted (fun a b => Bltb (f b) (f a) = false) (insert64 f i l).
Proof.
  intros f i l. induction l as [|k l IH]; intros Nn Ss; [repeat constructor|].
  pose proof (Nn i (or_introl eq_refl)) as Ni. pose proof (Nn k (or_intror (or_introl eq_refl))) as Nk.
  inversion Ss as [|? ? S1 S2]; subst. cbn. rewrite (leq_less _ _ Ni Nk). destruct (Bltb (f k) (f i)) eqn:L; cbn [negb].
  - constructor; [apply IH; [|exact S1]; intros j [E|E]; apply Nn; [left; exact E|right; right; exact E]|].
    rewrite Forall_forall in *. intros j J. apply insert64_in in J. destruct J as [->|J]; [|apply S2; exact J].
    destruct (Bltb (f i) (f k)) eqn:L'; [|reflexivity]. apply (less_rank _ _ Nk Ni) in L. apply (less_rank _ _ Ni Nk) in L'. lra.
  - constructor; [exact Ss|]. rewrite Forall_forall in *. intros j [<-|J]; [exact L|]. specialize (S2 j J).
    assert (Nj : is_nan (f j) = false) by (apply Nn; right; right; exact J).
    destruct (Bltb (f j) (f i)) eqn:L'; [|reflexivity]. apply (less_rank _ _ Nj Ni) in L'.
    assert (~ rank (f k) < rank (f i)) by (intro Q; apply (less_rank _ _ Nk Ni) in Q; congruence).
    assert (~ rank (f j) < rank (f k)) by (intro Q; apply (less_rank _ _ Nj Nk) in Q; congruence). lra.
Qed.

Lemma search64_contract : radius_contract64 0 search64.
Proof.
  intros pts q r. set (f := fun i => sqd64 (nth i pts (mkPoint (z64 0) (z64 0))) q).
  set (l := filter (fun i => Bltb (f i) r) (seq 0 (List.length pts))).
  assert (Es : search64 pts q r = fold_right (insert64 f) [] l) by reflexivity. rewrite Es.
  assert (Fn : forall i p, nth_error pts i = Some p -> f i = computed_sq p q).
  { intros i p E. unfold f. rewrite (nth_error_nth _ _ _ E). reflexivity. }
  assert (Mem : forall i l, In i (fold_right (insert64 f) [] l) <-> In i l).
  { intros i l0. induction l0 as [|j l0 IH]; cbn; [tauto|]. split.
    - intro K. apply insert64_in in K. destruct K as [->|K]; [left; reflexivity|right; apply IH; exact K].
    - intros K. apply insert64_perm. destruct K as [->|K]; [left; reflexivity|right; apply IH; exact K]. }
  assert (Inl : forall i, In i l <-> exists p, nth_error pts i = Some p /\ Bltb (computed_sq p q) r = true).
  { intro i. unfold l. rewrite filter_In, in_seq. split.
    - intros [Li Lt]. destruct (nth_error pts i) as [p|] eqn:E; [|apply nth_error_None in E; lia]. exists p. split; [reflexivity|]. rewrite <- (Fn i p E). exact Lt.
    - intros (p & E & Lt). split; [split; [lia|]; cbn; apply nth_error_Some; rewrite E; discriminate|]. rewrite (Fn i p E). exact Lt. }
  assert (Nn : forall i, In i l -> is_nan (f i) = false).
  { intros i I. unfold l in I. apply filter_In in I. destruct I as [_ I]. exact (less_number _ _ I). }
  assert (Nd : NoDup l) by (apply NoDup_filter, seq_NoDup).
  split; [|split; [|split]].
  - clear Inl Nn Es. revert Nd. generalize l as l0. induction l0 as [|j l0 IH]; intro Nd; [constructor|]. inversion Nd; subst. cbn [fold_right]. apply insert64_nodup; [rewrite Mem; assumption|apply IH; assumption].
  - intros i I. apply Inl, Mem. exact I.
  - intros i p E Fp Fr Lt. apply Mem, Inl. exists p. split; [exact E|]. rewrite Bltb_correct by assumption. apply Rlt_bool_true. lra.
  - assert (So : StronglySorted (fun a b => Bltb (f b) (f a) = false) (fold_right (insert64 f) [] l)).
    { clear Inl Nd Es. revert Nn. generalize l as l0. induction l0 as [|j l0 IH]; intro Nn; [constructor|]. cbn [fold_right]. apply insert64_sorted.
      - intros i [<-|I]; [apply Nn; left; reflexivity|]. apply Nn. right. apply Mem. exact I.
      - apply IH. intros i I. apply Nn. right. exact I. }
    revert So. generalize (fold_right (insert64 f) [] l) as k. induction k as [|a k IH]; intros So; [constructor|].
    inversion So as [|? ? S1 S2]; subst. constructor; [apply IH; exact S1|]. rewrite Forall_forall in *. intros b Ib p p' P P'.
    rewrite <- (Fn a p P), <- (Fn b p' P'). apply S2. exact Ib.
Qed.

Example C183_nonvacuous : forall lm : libm, let cf := cf64 lm 10 1 0 None true (Some one_scan) in
  radius_contract64 0 (en_search cf) /\ exists m g sc, run (A := BA (easy lm)) cf [] = Ok m /\ sp_pc (mp_spin m) = SIdle /\
  sh_glock (mp_sh m) = None /\ sh_enable (mp_sh m) = true /\ sh_init (mp_sh m) = false /\ sp_filter (mp_spin m) = None /\
  the_graph cf (mp_sh m) = Ok g /\ gr_scans g = [sc] /\ in_size (s_pose sc) /\ cf_use_bary cf = false.
Proof.
  intros lm cf. split; [exact search64_contract|].
  destruct (ends64_in (run (A := BA (easy lm)) cf []) (fun m => idle64 m && sh_enable (mp_sh m) && negb (sh_init (mp_sh m)) &&
    match sh_glock (mp_sh m) with None => true | _ => false end && match sp_filter (mp_spin m) with None => true | _ => false end &&
    match the_graph cf (mp_sh m) with Ok g => match gr_scans g with [sc] => is0 (pox (s_pose sc)) && is0 (poy (s_pose sc)) | _ => false end | Fault _ => false end)) as (m & E & H).
  { vm_compute. reflexivity. }
  apply andb_prop in H; destruct H as [H Hg]. repeat (apply andb_prop in H; destruct H as [H ?]).
  destruct (the_graph cf (mp_sh m)) as [g|] eqn:G; [|discriminate]. destruct (gr_scans g) as [|sc [|]] eqn:Gs; try discriminate.
  exists m, g, sc. split; [exact E|].
  unfold idle64 in H. destruct (sp_pc (mp_spin m)); try discriminate H.
  destruct (sh_glock (mp_sh m)); [discriminate|]. destruct (sp_filter (mp_spin m)); [discriminate|].
  destruct (sh_init (mp_sh m)); [discriminate|].
  repeat (split; [first [reflexivity|assumption]|]). split; [|reflexivity].
  apply andb_prop in Hg. destruct Hg as [Hx Hy]. unfold in_size.
  destruct (pox (s_pose sc)); try discriminate Hx. destruct (poy (s_pose sc)); try discriminate Hy. cbn [is_finite B2R]. rewrite Rabs_R0.
  pose proof (bpow_ge_0 radix2 400). repeat split; assumption.
Qed.
