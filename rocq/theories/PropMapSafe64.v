(** Property C145: building a map from scans and matching scans against it is well
    defined in double arithmetic. *)

From Coq Require Import ZArith Reals List Bool Lia Lra Psatz.
From Flocq Require Import Core BinarySingleNaN.
From Verif Require Import Outcome Arith TypesModel ScanModel CellModel NdtModel MatcherModel B64Lemmas SpecPlace64 SpecMapSafe64 CellB64 NearB64
  NdtProofs MatcherB64 MatcherB64b OccB64 SingleB64 NearestB64 PropPlace64.
Import ListNotations.
Local Open Scope R_scope.

Section S.
Context (lm : libm) (T : accurate_trig lm) (M : R) (HM : usual_size M).
Let A : Arith b64 := BA lm.
Existing Instance A.

(** ** The bounding box *)
Lemma box_fields (range : b64) (scans : list (scan b64)) (b : box b64) :
  let r := fold_left (box_step range) scans b in
  b_minx r = fold_left (fun a x => nmin x a) (map (fun s => Bminus mode_NE (pox (s_pose s)) range) scans) (b_minx b) /\
  b_maxx r = fold_left (fun a x => nmax x a) (map (fun s => Bplus mode_NE (pox (s_pose s)) range) scans) (b_maxx b) /\
  b_miny r = fold_left (fun a x => nmin x a) (map (fun s => Bminus mode_NE (poy (s_pose s)) range) scans) (b_miny b) /\
  b_maxy r = fold_left (fun a x => nmax x a) (map (fun s => Bplus mode_NE (poy (s_pose s)) range) scans) (b_maxy b).
Proof.
  revert b. induction scans as [|s scans IH]; intros b r; unfold r; cbn [fold_left map]; [repeat split|].
  exact (IH (box_step range b s)).
Qed.

Definition side (lo hi : b64) : Prop :=
  upto (201 / 100 * M) lo /\ upto (201 / 100 * M) hi /\ B2R lo <= B2R hi.

Lemma offset_upto (x r : b64) : upto M x -> upto M r ->
  upto (201 / 100 * M) (Bminus mode_NE x r) /\ upto (201 / 100 * M) (Bplus mode_NE x r).
Proof.
  intros X Y. pose proof (near_upto M _ X) as NX. pose proof (near_upto M _ Y) as NY. pose proof (M_pos M HM).
  near_op near_sub M HM NX NY D. near_op near_add M HM NX NY U.
  pose proof (fun k => near_size M HM _ _ _ _ k D) as BD; specialize (BD ltac:(lra)). pose proof (fun k => near_size M HM _ _ _ _ k U) as BS; specialize (BS ltac:(lra)).
  split; (split; [first [apply D|apply U]|lra]).
Qed.

Lemma side_of (range : b64) (xs : list b64) : upto M range -> 0 <= B2R range -> xs <> [] -> Forall (upto M) xs ->
  side (fold_left (fun a x => nmin x a) (map (fun x => Bminus mode_NE x range) xs) nmaxval)
       (fold_left (fun a x => nmax x a) (map (fun x => Bplus mode_NE x range) xs) nminpos).
Proof.
  intros R P N F. pose proof (M_pos M HM) as MP.
  assert (F1 : Forall (fun x => is_finite x = true) (map (fun x => Bminus mode_NE x range) xs)).
  { apply Forall_map. eapply Forall_impl; [|exact F]. intros x X. apply (offset_upto x range X R). }
  assert (F2 : Forall (fun x => is_finite x = true) (map (fun x => Bplus mode_NE x range) xs)).
  { apply Forall_map. eapply Forall_impl; [|exact F]. intros x X. apply (offset_upto x range X R). }
  destruct (fold_min lm _ (nmaxval (Arith := BA lm)) (eq_refl true) F1) as (G1 & _ & G3 & G4). destruct (fold_max lm _ (nminpos (Arith := BA lm)) (eq_refl true) F2) as (H1 & _ & H3 & H4).
  change (BA lm) with A in G1, G3, G4, H1, H3, H4.
  match type of G1 with is_finite ?l = true => set (lo := l) in * end. match type of H1 with is_finite ?l = true => set (hi := l) in * end.
  change (side lo hi).
  clearbody lo hi. destruct xs as [|x xs]; [congruence|]. inversion F as [|? ? X F']; subst.
  pose proof (G3 _ (or_introl eq_refl)) as L1. pose proof (H3 _ (or_introl eq_refl)) as L2.
  destruct (offset_upto x range X R) as [[_ U1] [_ U2]]. apply Rabs_le_inv in U1, U2.
  assert (Mx : Rabs (B2R x - B2R range) <= bpow radix2 1023 /\ Rabs (B2R x + B2R range) <= bpow radix2 1023).
  { pose proof (big_M M HM). destruct X as [_ X]. destruct R as [_ R]. apply Rabs_le_inv in X, R. split; apply Rabs_le; lra. }
  assert (O : B2R (Bminus mode_NE x range) <= B2R (Bplus mode_NE x range)).
  { rewrite (proj1 (b64_sub_ok x range (proj1 X) (proj1 R) (proj1 Mx))), (proj1 (b64_add_ok x range (proj1 X) (proj1 R) (proj2 Mx))). apply rnd_le. lra. }
  assert (Llo : - (201 / 100 * M) <= B2R lo).
  { destruct G4 as [E|I].
    - assert (B2R lo = B2R (nmaxval (Arith := A))) by (exact (f_equal B2R E)). assert (0 <= B2R (nmaxval (Arith := A))) by (apply Float_prop.F2R_ge_0; cbn; lia). lra.
    - apply in_map_iff in I. destruct I as (y & E & I). rewrite <- E. rewrite Forall_forall in F. destruct (offset_upto y range (F y I) R) as [[_ U] _].
      apply Rabs_le_inv in U. lra. }
  assert (Lhi : B2R hi <= 201 / 100 * M).
  { destruct H4 as [E|I].
    - assert (B2R hi = B2R (b64_of 1 (-1022))) by (exact (f_equal B2R E)).
      assert (B2R (b64_of 1 (-1022)) = bpow radix2 (-1022)).
      { assert (Eb : F2R (Float radix2 1 (-1022)) = bpow radix2 (-1022)) by (unfold F2R; cbn [Fnum Fexp]; lra).
        destruct (SingleB64.b64_of_exact 1 (-1022)) as [Ex _]; [| |lra].
        - rewrite Eb. apply generic_format_bpow. unfold SpecFloat.fexp. cbn. lia.
        - rewrite Eb, Rabs_pos_eq by apply bpow_ge_0. apply bpow_le. lia. }
      assert (bpow radix2 (-1022) <= M) by (eapply Rle_trans; [|apply HM]; apply bpow_le; lia). lra.
    - apply in_map_iff in I. destruct I as (y & E & I). rewrite <- E. rewrite Forall_forall in F. destruct (offset_upto y range (F y I) R) as [_ [_ U]].
      apply Rabs_le_inv in U. lra. }
  split; [split; [exact G1|apply Rabs_le; lra]|]. split; [split; [exact H1|apply Rabs_le; lra]|]. lra.
Qed.

(** ** Conversions *)
Context (res : b64) (Fr : is_finite res = true) (Pr : 0 < B2R res) (Rr : M <= 9000 * B2R res).

Lemma quot_ok (x : b64) (c : Z) : is_finite x = true -> 0 <= B2R x <= IZR c * M -> (0 <= c <= 100)%Z ->
  is_finite (Bdiv mode_NE x res) = true /\ 0 <= B2R (Bdiv mode_NE x res) <= IZR (c * 9000).
Proof.
  intros F B C. pose proof (M_pos M HM) as MP. assert (I : 0 < / B2R res) by (apply Rinv_0_lt_compat; exact Pr).
  assert (C' : 0 <= IZR c) by (apply IZR_le; lia).
  assert (Q : 0 <= B2R x / B2R res <= IZR (c * 9000)).
  { split; [unfold Rdiv; apply Rmult_le_pos; lra|].
    apply Rmult_le_reg_r with (B2R res); [exact Pr|]. unfold Rdiv. rewrite Rmult_assoc, Rinv_l, Rmult_1_r by lra.
    rewrite mult_IZR. nra. }
  destruct (b64_div_ok x res F ltac:(lra)) as [E Fq].
  { rewrite Rabs_pos_eq by apply Q. eapply Rle_trans; [apply Q|]. eapply Rle_trans; [apply Rle_abs|]. apply IZR_bpow1023. lia. }
  split; [exact Fq|]. rewrite E. split; [apply rnd_lb; [apply (fmt_int 0); cbn; lia|apply Q]|apply rnd_ub; [apply fmt_int; lia|apply Q]].
Qed.

Lemma cast_ok (bits : Z) (x : b64) (c : Z) : is_finite x = true -> 0 <= B2R x <= IZR c -> (c < 2 ^ bits)%Z ->
  exists n, cast_unsigned bits x = Ok n /\ (0 <= n <= c)%Z.
Proof.
  intros F B C. unfold cast_unsigned. cbn [ntrunc A BA]. rewrite b64_trunc_ok by exact F.
  rewrite Ztrunc_floor by apply B.
  assert (L : (0 <= Zfloor (B2R x) <= c)%Z).
  { split; [apply Zfloor_lub; apply B|]. apply le_IZR. eapply Rle_trans; [apply Zfloor_lb|apply B]. }
  exists (Zfloor (B2R x)). destruct (Z.leb_spec 0 (Zfloor (B2R x))); [|lia]. destruct (Z.ltb_spec (Zfloor (B2R x)) (2 ^ bits)); [|lia].
  split; [reflexivity|exact L].
Qed.

Lemma diff_ok (x y : b64) (c : Z) (a b : R) : upto (a * M) x -> upto (b * M) y -> B2R y <= B2R x -> 0 <= a <= 10 -> 0 <= b <= 10 -> a + b + / 100 <= IZR c ->
  is_finite (Bminus mode_NE x y) = true /\ 0 <= B2R (Bminus mode_NE x y) <= IZR c * M.
Proof.
  intros [Fx X] [Fy Y] L Pa Pb C. pose proof (M_pos M HM) as MP.
  pose proof (near_exact M _ x Fx X) as NX. pose proof (near_exact M _ y Fy Y) as NY.
  near_op near_sub M HM NX NY D. pose proof (fun k => near_size M HM _ _ _ _ k D) as BD; specialize (BD ltac:(lra)). apply Rabs_le_inv in BD.
  split; [apply D|]. split.
  - destruct (b64_sub_ok x y Fx Fy) as [E _].
    { pose proof (big_M M HM). apply Rabs_le_inv in X, Y. apply Rabs_le. nra. }
    rewrite E. apply rnd_lb; [apply (fmt_int 0); cbn; lia|lra].
  - assert ((a + b + / 1000) * M <= IZR c * M) by (apply Rmult_le_compat_r; lra). lra.
Qed.

Lemma extent_ok (lo hi : b64) : side lo hi -> exists n, cast_unsigned 64 (nadd (ndiv (nsub hi lo) res) none_) = Ok n /\ (0 <= n <= 45001)%Z.
Proof.
  intros (L & H & O). destruct (diff_ok hi lo 5 (201 / 100) (201 / 100) H L O) as [F B]; try lra.
  destruct (quot_ok _ 5 F B ltac:(lia)) as [Fq Bq]. cbn in Bq.
  assert (E1 : B2R (b64_of 1 0) = 1) by (destruct (b64_ofZ 1 ltac:(lia)) as [E _]; exact E).
  destruct (b64_add_ok (Bdiv mode_NE (Bminus mode_NE hi lo) res) (b64_of 1 0) Fq eq_refl) as [E Fe].
  { rewrite E1, Rabs_pos_eq by lra. eapply Rle_trans; [|apply (IZR_bpow1023 45001); lia]. rewrite Rabs_pos_eq; lra. }
  apply (cast_ok 64 (Bplus mode_NE (Bdiv mode_NE (Bminus mode_NE hi lo) res) (b64_of 1 0)) 45001); [exact Fe| |lia].
  rewrite E, E1. split; [apply rnd_lb; [apply (fmt_int 0); cbn; lia|lra]|apply rnd_ub; [apply fmt_int; cbn; lia|lra]].
Qed.

(** ** Finding cells *)
Definition placed (g : ndt b64) : Prop :=
  ndt_wf g /\ g_cs g = res /\ upto (201 / 100 * M) (g_ox g) /\ upto (201 / 100 * M) (g_oy g).

Definition reach (q : point b64) : Prop := upto (5 * M) (px q) /\ upto (5 * M) (py q).

Lemma coord_ok (x o : b64) : upto (5 * M) x -> upto (201 / 100 * M) o -> nlt x o = false ->
  exists n, cast_unsigned 32 (ndiv (nsub x o) res) = Ok n.
Proof.
  intros X O L. cbn [nlt A BA] in L. rewrite Bltb_correct in L by (apply X || apply O).
  destruct (Rlt_bool_spec (B2R x) (B2R o)) as [?|L']; [discriminate|].
  destruct (diff_ok x o 8 5 (201 / 100) X O L') as [F B]; try lra.
  destruct (quot_ok _ 8 F B ltac:(lia)) as [Fq Bq].
  destruct (cast_ok 32 _ (8 * 9000) Fq Bq ltac:(lia)) as (n & E & _). exists n. exact E.
Qed.

Lemma index_ok (g : ndt b64) (q : point b64) : placed g -> reach q -> exists i, ndt_index g (px q) (py q) = Ok i.
Proof.
  intros (_ & C & OX & OY) [X Y]. unfold ndt_index. rewrite C.
  destruct (nlt (px q) (g_ox g)) eqn:LX; [eexists; reflexivity|]. destruct (nlt (py q) (g_oy g)) eqn:LY; [eexists; reflexivity|].
  cbn [orb]. destruct (coord_ok _ _ X OX LX) as (a & ->). destruct (coord_ok _ _ Y OY LY) as (b & ->). cbn [bind].
  destruct ((g_sx g <=? a)%Z || (g_sy g <=? b)%Z)%bool; eexists; reflexivity.
Qed.

Lemma likelihood_ok (g : ndt b64) (q : point b64) : placed g -> reach q -> exists l, ndt_likelihood g q = Ok l.
Proof.
  intros G Q. destruct (index_ok g q G Q) as (i & E). unfold ndt_likelihood. rewrite E. cbn [bind].
  destruct (Z.leb_spec 0 i) as [P|P]; [|eexists; reflexivity].
  destruct (ndt_index_bounds g _ _ i (proj1 G) E) as [?|B]; [lia|].
  destruct (vec_get_ok (g_cells g) i B) as (c & -> & _). eexists. reflexivity.
Qed.

Lemma likelihood_points_ok (g : ndt b64) (qs : list (point b64)) : placed g -> Forall reach qs -> exists l, ndt_likelihood_points g qs = Ok l.
Proof.
  intros G Q. rewrite Forall_forall in Q. unfold ndt_likelihood_points. apply foldM_total. intros a q Hq.
  destruct (likelihood_ok g q G (Q q Hq)) as (l & ->). eexists. reflexivity.
Qed.

Lemma placed_geom (g h : ndt b64) : same_geom g h -> placed g -> placed h.
Proof.
  intros E (W & C & OX & OY). pose proof (same_geom_wf g h E W). destruct E as (A1 & A2 & A3 & A4 & A5 & A6).
  unfold placed. rewrite <- A1, <- A4, <- A5. auto.
Qed.

Lemma add_point_ok (g : ndt b64) (q : point b64) : placed g -> reach q -> exists h, ndt_add_point g q = Ok h /\ placed h.
Proof.
  intros G Q. destruct (index_ok g q G Q) as (i & E).
  assert (X : exists h, ndt_add_point g q = Ok h).
  { unfold ndt_add_point. rewrite E. cbn [bind]. destruct (Z.leb_spec 0 i) as [P|P]; [|eexists; reflexivity].
    destruct (ndt_index_bounds g _ _ i (proj1 G) E) as [?|B]; [lia|]. unfold vec_update.
    destruct (vec_get_ok (g_cells g) i B) as (c & -> & _). eexists. reflexivity. }
  destruct X as (h & X). exists h. split; [exact X|]. eapply placed_geom; [eapply ndt_add_point_geom; exact X|exact G].
Qed.

Lemma foldM_good {S X : Type} (I : S -> Prop) (f : S -> X -> outcome S) (xs : list X) :
  (forall a x, I a -> In x xs -> exists b, f a x = Ok b /\ I b) -> forall a, I a -> exists b, foldM f a xs = Ok b /\ I b.
Proof.
  induction xs as [|x xs IH]; intros H a Ia; cbn [foldM]; [exists a; split; [reflexivity|exact Ia]|].
  destruct (H a x Ia (or_introl eq_refl)) as (b & -> & Ib). cbn [bind]. apply IH; [|exact Ib]. intros c y Ic Hy. apply H; [exact Ic|right; exact Hy].
Qed.

Lemma lands_reach (p : pose b64) (q q' : point b64) : pose_upto M p -> point_upto M q -> lands (bpow radix2 (-49) * M) p q q' ->
  upto (301 / 100 * M) (px q') /\ upto (301 / 100 * M) (py q').
Proof.
  intros ([_ PX] & [_ PY] & _) ([_ QX] & [_ QY]) ([F1 E1] & [F2 E2]). pose proof (M_pos M HM) as MP. unfold seen_x in E1. unfold seen_y in E2.
  assert (S : bpow radix2 (-49) * M <= / 100 * M) by (apply Rmult_le_compat_r; [lra|]; cbn; lra).
  pose proof (COS_bound (B2R (poth p))) as [C1 C2]. pose proof (SIN_bound (B2R (poth p))) as [S1 S2].
  set (c := cos (B2R (poth p))) in *. set (s := sin (B2R (poth p))) in *.
  assert (K : forall k v, -1 <= k <= 1 -> Rabs v <= M -> Rabs (k * v) <= M).
  { intros k v Hk Hv. rewrite Rabs_mult. assert (Rabs k <= 1) by (apply Rabs_le; lra). pose proof (Rabs_pos k). pose proof (Rabs_pos v). nra. }
  pose proof (K c _ (conj C1 C2) QX) as K1. pose proof (K s _ (conj S1 S2) QX) as K2.
  pose proof (K c _ (conj C1 C2) QY) as K3. pose proof (K s _ (conj S1 S2) QY) as K4.
  apply Rabs_le_inv in PX, PY, E1, E2, K1, K2, K3, K4.
  split; (split; [assumption|apply Rabs_le; lra]).
Qed.

Lemma reach_weak (q : point b64) : upto (301 / 100 * M) (px q) /\ upto (301 / 100 * M) (py q) -> reach q.
Proof. pose proof (M_pos M HM). intros [[F1 B1] [F2 B2]]. split; (split; [assumption|lra]). Qed.

Lemma add_scan_ok (g : ndt b64) (s : scan b64) : placed g -> scan_upto M s -> exists h, ndt_add_scan g s = Ok h /\ placed h.
Proof.
  intros G [P Q]. rewrite Forall_forall in Q. unfold ndt_add_scan. apply foldM_good; [|exact G].
  intros a q Ga Hq. apply in_map_iff in Hq. destruct Hq as (q0 & <- & Hq).
  apply add_point_ok; [exact Ga|]. apply reach_weak. apply (lands_reach (s_pose s) q0); [exact P|apply Q; exact Hq|].
  apply (place64 lm M); auto.
Qed.

(** ** Search windows *)
Lemma loop_window (W : R) (size step : b64) : W <= bpow radix2 400 -> upto W size -> is_finite step = true -> 0 <= B2R step <= bpow radix2 400 ->
  forall fuel d l, loop_values fuel d size step = Ok l -> is_finite d = true -> - B2R size <= B2R d -> Forall (upto W) l.
Proof.
  intros HW [Fs Bs] Fst Hr. apply Rabs_le_inv in Bs.
  induction fuel as [|f IH]; intros d l H Fd Hd; cbn [loop_values] in H; [discriminate|].
  destruct (nlt d size) eqn:E; [|injection H as <-; constructor].
  cbn [nlt A BA] in E. rewrite Bltb_correct in E by assumption.
  destruct (Rlt_bool_spec (B2R d) (B2R size)) as [Hlt|?]; [|discriminate].
  apply bind_ok in H. destruct H as (ds & Hds & H). injection H as <-.
  assert (H2 : bpow radix2 400 + bpow radix2 400 <= bpow radix2 1023).
  { apply Rle_trans with (2 * bpow radix2 400); [lra|]. change 2 with (bpow radix2 1). rewrite <- bpow_plus. apply bpow_le. lia. }
  constructor; [split; [exact Fd|apply Rabs_le; lra]|].
  cbn [nadd A BA] in Hds. destruct (b64_add_ok d step Fd Fst) as [Ea Fa]; [apply Rabs_le; lra|].
  apply (IH _ _ Hds); [exact Fa|]. rewrite Ea. apply Rle_trans with (B2R d); [exact Hd|]. apply rnd_lb; [apply fmt_b64|lra].
Qed.

Lemma window_ok (W : R) (size step : b64) : W <= bpow radix2 400 -> sane_window W size step ->
  exists n l, (forall fuel, (n < fuel)%nat -> loop_values fuel (nopp size) size step = Ok l) /\ Forall (upto W) l.
Proof.
  intros HW ([Fs Bs] & Fst & [P1 P2] & L).
  assert (B4 : bpow radix2 400 <= bpow radix2 1000) by (apply bpow_le; lia).
  destruct (search_terminates_b64 lm size step Fs Fst P1 L ltac:(lra) ltac:(lra)) as (n & l & E). exists n, l. split; [exact E|].
  apply (loop_window W size step HW (conj Fs Bs) Fst ltac:(lra) (S n) _ _ (E (S n) (Nat.lt_succ_diag_r n))).
  - cbn [nopp A BA]. rewrite is_finite_Bopp. exact Fs.
  - cbn [nopp A BA]. rewrite B2R_Bopp. lra.
Qed.

(** ** Scoring and matching *)
Lemma beam_points_ok (m : matcher b64) (pts : list (point b64)) : (0 <= k_beams m)%Z -> (Z.of_nat (length pts) <= 2 ^ 52)%Z ->
  exists bp, beam_points m pts = Ok bp /\ incl bp pts.
Proof.
  intros Hb Hl.
  destruct (Z.eq_dec (beams_used m pts) 0) as [E|E].
  - exists []. unfold beam_points. rewrite E. cbn. split; [reflexivity|intros ? []].
  - unfold beams_used in E. assert (pts <> []) by (intros ->; cbn in E; lia).
    destruct (beam_points_b64 lm m pts ltac:(lia) H Hl) as (idxs & bp & Hbp & Hf & _). exists bp. split; [exact Hbp|].
    intros q Hq. clear - Hf Hq. induction Hf as [|i x l ps H1 Hf IH]; [destruct Hq|]. destruct Hq as [<-|Hq]; [eapply nth_error_In; exact H1|auto].
Qed.
End S.

(** The heading used in the search stays finite. *)
Lemma heading_finite (a b : b64) : upto (bpow radix2 400) a -> upto (bpow radix2 400) b -> is_finite (Bplus mode_NE a b) = true.
Proof.
  intros [Fa Ba] [Fb Bb]. apply Rabs_le_inv in Ba, Bb.
  destruct (b64_add_ok a b Fa Fb) as [_ F]; [|exact F].
  assert (H2 : bpow radix2 400 + bpow radix2 400 <= bpow radix2 1023).
  { apply Rle_trans with (2 * bpow radix2 400); [lra|]. change 2 with (bpow radix2 1). rewrite <- bpow_plus. apply bpow_le. lia. }
  apply Rabs_le. lra.
Qed.

Lemma build_placed (lm : libm) (M : R) (eig : mat2 b64 -> b64 * b64) (m : matcher b64) (scans : list (scan b64)) :
  accurate_trig lm -> usual_size M -> fits_map M m -> scans <> [] -> Forall (scan_upto M) scans ->
  exists g, add_scans (A := BA lm) eig m scans = Ok (with_ndt m (Some g)) /\ placed M (k_resolution m) g.
Proof.
  intros T HM (Fr & Pr & Rr & UR & PR) N F.
  assert (HX : side M (b_minx (scans_box (A := BA lm) (k_range m) scans)) (b_maxx (scans_box (A := BA lm) (k_range m) scans)) /\
               side M (b_miny (scans_box (A := BA lm) (k_range m) scans)) (b_maxy (scans_box (A := BA lm) (k_range m) scans))).
  { destruct (box_fields lm (k_range m) scans (box_init (A := BA lm))) as (E1 & E2 & E3 & E4). unfold scans_box. rewrite E1, E2, E3, E4.
    split.
    - pose proof (side_of lm M HM (k_range m) (map (fun s => pox (s_pose s)) scans) UR PR) as H. rewrite !map_map in H. apply H.
      + destruct scans; [congruence|discriminate].
      + apply Forall_map. eapply Forall_impl; [|exact F]. intros s [P _]. apply P.
    - pose proof (side_of lm M HM (k_range m) (map (fun s => poy (s_pose s)) scans) UR PR) as H. rewrite !map_map in H. apply H.
      + destruct scans; [congruence|discriminate].
      + apply Forall_map. eapply Forall_impl; [|exact F]. intros s [P _]. apply P. }
  unfold add_scans. set (b := scans_box (A := BA lm) (k_range m) scans) in *. destruct HX as [SX SY].
  assert (G0 : exists g0, ndt_new (A := BA lm) (k_resolution m) (nsub (Arith := BA lm) (b_maxx b) (b_minx b)) (nsub (Arith := BA lm) (b_maxy b) (b_miny b)) (b_minx b) (b_miny b) = Ok g0 /\
     placed M (k_resolution m) g0).
  { destruct (extent_ok lm M HM _ Pr Rr _ _ SX) as (nx & Ex & Bx). destruct (extent_ok lm M HM _ Pr Rr _ _ SY) as (ny & Ey & By).
    assert (E : exists g0, ndt_new (A := BA lm) (k_resolution m) (nsub (Arith := BA lm) (b_maxx b) (b_minx b)) (nsub (Arith := BA lm) (b_maxy b) (b_miny b)) (b_minx b) (b_miny b) = Ok g0 /\
       (g_sx g0 = nx /\ g_sy g0 = ny)).
    { unfold ndt_new. rewrite Ex. cbn [bind]. rewrite Ey. cbn [bind]. eexists. split; [reflexivity|]. cbn [g_sx g_sy]. split; reflexivity. }
    destruct E as (g0 & E & Sx & Sy). exists g0. split; [exact E|].
    destruct (ndt_new_cells _ _ _ _ _ _ E) as (C & OX & OY & _).
    split; [|rewrite C, OX, OY; split; [reflexivity|split; [apply SX|apply SY]]].
    eapply ndt_new_wf; [exact E|]. rewrite Sx, Sy. nia. }
  destruct G0 as (g0 & -> & P0). cbn [bind].
  destruct (foldM_good (placed M (k_resolution m)) (ndt_add_scan (A := BA lm)) scans) with (a := g0) as (g1 & -> & P1); [|exact P0|].
  - intros a s Pa Hs. rewrite Forall_forall in F. apply (add_scan_ok lm T M HM _ Pr Rr a s Pa (F s Hs)).
  - cbn [bind]. eexists. split; [reflexivity|]. eapply placed_geom; [apply ndt_compute_geom|exact P1].
Qed.

(** addScans on scans within [M] of the origin returns. *)
Theorem C145_build (lm : libm) (M : R) (eig : mat2 b64 -> b64 * b64) (m : matcher b64) (scans : list (scan b64)) :
  accurate_trig lm -> usual_size M -> fits_map M m -> scans <> [] -> Forall (scan_upto M) scans ->
  exists m', add_scans (A := BA lm) eig m scans = Ok m'.
Proof. intros T HM S N F. destruct (build_placed lm M eig m scans T HM S N F) as (g & E & _). eauto. Qed.

(** Scoring points against that map returns. *)
Theorem C145_score (lm : libm) (M : R) (eig : mat2 b64 -> b64 * b64) (m m' : matcher b64) (scans : list (scan b64))
  (pts : list (point b64)) (p : pose b64) :
  accurate_trig lm -> usual_size M -> fits_map M m -> scans <> [] -> Forall (scan_upto M) scans ->
  add_scans (A := BA lm) eig m scans = Ok m' ->
  pose_upto M p -> Forall (point_upto M) pts -> (0 <= k_beams m)%Z -> (Z.of_nat (length pts) <= 2 ^ 52)%Z ->
  exists v, score_points (A := BA lm) m' pts p = Ok v.
Proof.
  intros T HM S N F E P Q B L. destruct (build_placed lm M eig m scans T HM S N F) as (g & E' & G). rewrite E in E'. injection E' as ->.
  destruct S as (Fr & Pr & Rr & UR & PR). unfold score_points. cbn [k_ndt with_ndt].
  set (m1 := with_ndt m (Some g)). set (n := Z.of_nat (length pts)) in *.
  set (f := fun (score : b64) (i : Z) => bind (beam_index (A := BA lm) (scan_step_size (A := BA lm) m1 pts) i) _).
  destruct (foldM_total f (map Z.of_nat (seq 0 (Z.to_nat (beams_used m1 pts))))) with (s := nzero (A := BA lm)) as (v & ->); [|eexists; reflexivity].
  intros a i Hi. apply in_map_iff in Hi. destruct Hi as (k & <- & Hk). apply in_seq in Hk.
  assert (Hu : (1 <= beams_used m1 pts <= n)%Z) by (unfold beams_used, m1 in *; cbn [k_beams with_ndt] in *; fold n in Hk |- *; lia).
  unfold f, scan_step_size. change (ndiv (Arith := BA lm) (nofZ (Z.of_nat (length pts))) (nofZ (beams_used m1 pts))) with (Bdiv mode_NE (b64_of n 0) (b64_of (beams_used m1 pts) 0)).
  rewrite beam_index_b64 by lia. cbn [bind].
  destruct (vec_get_ok pts _ (exact_index_bounds n (beams_used m1 pts) ltac:(lia) ltac:(lia) L (Z.of_nat k) ltac:(lia))) as (q & -> & Hq). cbn [bind].
  apply nth_error_In in Hq. rewrite Forall_forall in Q.
  destruct (likelihood_ok lm M HM _ Pr Rr g (iso_apply (A := BA lm) p q) G) as (l & ->); [|eexists; reflexivity].
  apply (reach_weak M HM). apply (lands_reach M HM p q); [exact P|apply Q; exact Hq|]. apply iso_apply64; auto.
Qed.

(** Matching a scan against that map returns, with any sufficient number of loop
    steps. *)
Theorem C145_match (lm : libm) (M : R) (eig : mat2 b64 -> b64 * b64) (m m' : matcher b64) (scans : list (scan b64))
  (s : scan b64) :
  accurate_trig lm -> usual_size M -> fits_map M m -> scans <> [] -> Forall (scan_upto M) scans ->
  add_scans (A := BA lm) eig m scans = Ok m' ->
  scan_upto M s -> upto (bpow radix2 400) (poth (s_pose s)) -> (0 <= k_beams m)%Z -> (Z.of_nat (length (s_pts s)) <= 2 ^ 52)%Z ->
  sane_window M (k_lin_size m) (k_lin_res m) -> sane_window (bpow radix2 400) (k_ang_size m) (k_ang_res m) ->
  exists n, forall fuel p cov, (n < fuel)%nat -> exists r, match_scan (A := BA lm) fuel m' s p cov = Ok r.
Proof.
  intros T HM S N F E [P Q] H B L WL WA. destruct (build_placed lm M eig m scans T HM S N F) as (g & E' & G). rewrite E in E'. injection E' as ->.
  destruct S as (Fr & Pr & Rr & UR & PR). pose proof (M_pos M HM) as MP.
  destruct (window_ok lm M _ _ ltac:(apply HM) WL) as (n1 & ds & E1 & D1).
  destruct (window_ok lm (bpow radix2 400) _ _ ltac:(lra) WA) as (n2 & dths & E2 & D2).
  exists (max n1 n2). intros fuel p cov Hf. unfold match_scan. cbn [k_ndt with_ndt k_ang_size k_ang_res k_lin_size k_lin_res].
  rewrite (E2 fuel ltac:(lia)). cbn [bind]. rewrite (E1 fuel ltac:(lia)). cbn [bind].
  rewrite Forall_forall in Q, D1, D2.
  match goal with |- exists r, bind ?x _ = Ok r => assert (X : exists w, x = Ok w); [|destruct X as (w & ->); eexists; reflexivity] end.
  apply foldM_total. intros w dth Hd. specialize (D2 dth Hd).
  destruct (beam_points_ok lm (with_ndt m (Some g)) (s_pts s)) as (bp & -> & I); [exact B|exact L|]. cbn [bind].
  apply foldM_total. intros w1 dx Hx. apply foldM_total. intros w2 dy Hy. unfold match_step.
  destruct (likelihood_points_ok lm M HM _ Pr Rr g (inner_points (A := BA lm) dx dy (outer_points (A := BA lm) (s_pose s) dth bp)) G) as (l & ->); [|eexists; reflexivity].
  unfold inner_points, outer_points. rewrite map_map. apply Forall_map. apply Forall_forall. intros q Hq. specialize (Q q (I q Hq)).
  pose proof (heading_finite _ _ H D2) as FH.
  assert (PH : pose_upto M (mkPose (pox (s_pose s)) (poy (s_pose s)) (Bplus mode_NE (poth (s_pose s)) dth))) by (destruct P as (PX & PY & _); repeat split; try apply PX; try apply PY; exact FH).
  pose proof (ray_end64 lm M _ q T HM PH Q) as R1. cbn [pox poy poth] in R1.
  apply (lands_reach M HM _ _ _ PH Q) in R1. destruct R1 as [[F1 B1] [F2 B2]]. cbn [px py] in F1, B1, F2, B2.
  pose proof (near_exact M _ _ F1 B1) as N1. pose proof (near_exact M _ _ F2 B2) as N2.
  pose proof (near_upto M _ (D1 dx Hx)) as NX. pose proof (near_upto M _ (D1 dy Hy)) as NY.
  near_op near_add M HM N1 NX U. near_op near_add M HM N2 NY D.
  pose proof (fun k => near_size M HM _ _ _ _ k U) as S1; specialize (S1 ltac:(lra)).
  pose proof (fun k => near_size M HM _ _ _ _ k D) as S2; specialize (S2 ltac:(lra)).
  split; cbn [px py]; (split; [first [exact (proj1 U)|exact (proj1 D)]|]).
  - eapply Rle_trans; [exact S1|]. lra.
  - eapply Rle_trans; [exact S2|]. lra.
Qed.

(** ** The default parameters *)
Lemma lit_range (lm : libm) (a b k j : Z) : (0 < b)%Z -> (Z.abs a <= 2 ^ 53)%Z -> (b <= 2 ^ 53)%Z -> (-1000 <= k)%Z -> (k <= j <= 1000)%Z ->
  bpow radix2 k <= IZR a / IZR b <= bpow radix2 j ->
  is_finite (nlit (A := BA lm) a b) = true /\ bpow radix2 k <= B2R (nlit (A := BA lm) a b) <= bpow radix2 j.
Proof.
  intros P Ba Bb Hk Hj B. destruct (b64_ofZ a ltac:(lia)) as [Ea Fa]. destruct (b64_ofZ b ltac:(lia)) as [Eb Fb].
  assert (0 < IZR b) by (apply IZR_lt; lia). pose proof (bpow_gt_0 radix2 k).
  change (nlit (A := BA lm) a b) with (Bdiv mode_NE (b64_of a 0) (b64_of b 0)).
  destruct (b64_div_ok (b64_of a 0) (b64_of b 0) Fa) as [E F]; [rewrite Eb; lra| |].
  { rewrite Ea, Eb, Rabs_pos_eq by lra. eapply Rle_trans; [apply B|apply bpow_le; lia]. }
  split; [exact F|]. rewrite E, Ea, Eb.
  assert (G : forall i, (-1000 <= i <= 1000)%Z -> fmt (bpow radix2 i)).
  { intros i Hi. apply generic_format_bpow. unfold fexp64, SpecFloat.fexp, SpecFloat.emin. lia. }
  split; [apply rnd_lb; [apply G; lia|apply B]|apply rnd_ub; [apply G; lia|apply B]].
Qed.

Lemma default_fits (lm : libm) (M : R) (range : b64) : 1 <= M <= 2000 -> upto M range -> 0 <= B2R range ->
  let m := matcher_default (A := BA lm) range in
  usual_size M /\ fits_map M m /\ (0 <= k_beams m)%Z /\ sane_window M (k_lin_size m) (k_lin_res m) /\
  sane_window (bpow radix2 400) (k_ang_size m) (k_ang_res m).
Proof.
  intros HM UR PR m.
  assert (B400 : bpow radix2 11 <= bpow radix2 400) by (apply bpow_le; lia).
  assert (B0 : bpow radix2 (-400) <= bpow radix2 0) by (apply bpow_le; lia). change (bpow radix2 0) with 1 in B0.
  assert (B11 : bpow radix2 11 = 2048) by (cbn; lra).
  assert (B2 : bpow radix2 (-2) = / 4) by (cbn; lra). assert (B10 : bpow radix2 (-10) = / 1024) by (cbn; lra).
  assert (B51 : bpow radix2 (-51) <= bpow radix2 (-10)) by (apply bpow_le; lia). pose proof (bpow_ge_0 radix2 (-51)).
  assert (B00 : bpow radix2 0 = 1) by reflexivity.
  destruct (lit_range lm 1 4 (-2) (-2)) as [F1 V1]; try lia; [rewrite B2; lra|].
  destruct (lit_range lm 25 10000 (-10) 0) as [F2 V2]; try lia; [rewrite B10, B00; lra|].
  destruct (lit_range lm 1 10 (-10) 0) as [F3 V3]; try lia; [rewrite B10, B00; lra|].
  destruct (lit_range lm 5 1000 (-10) 0) as [F4 V4]; try lia; [rewrite B10, B00; lra|].
  destruct (lit_range lm 5 100 (-10) 0) as [F5 V5]; try lia; [rewrite B10, B00; lra|].
  rewrite B10, B00 in *. rewrite B2 in *.
  assert (PR1 : forall x : b64, / 1024 <= B2R x <= 1 -> Rabs (B2R x) <= 1) by (intros x X; rewrite Rabs_pos_eq; lra).
  split; [split; lra|].
  split; [unfold m, fits_map, matcher_default; cbn [k_resolution k_range]; repeat split; try assumption; try lra; apply UR|].
  split; [unfold m, matcher_default; cbn [k_beams]; lia|].
  split; unfold m, matcher_default; cbn [k_lin_size k_lin_res k_ang_size k_ang_res]; unfold sane_window.
  - split; [split; [exact F5|specialize (PR1 _ V5); lra]|]. split; [exact F4|]. split; [lra|]. eapply Rle_trans; [|apply V4]. rewrite <- (Rmult_1_l (/ 1024)). apply Rmult_le_compat; lra.
  - split; [split; [exact F3|specialize (PR1 _ V3); lra]|]. split; [exact F2|]. split; [lra|]. eapply Rle_trans; [|apply V2]. rewrite <- (Rmult_1_l (/ 1024)). apply Rmult_le_compat; lra.
Qed.

(** With the default parameters, scans taken within 2000 m of the origin and
    reaching at most as far: the map is built and every such scan can be matched
    and scored against it. *)
Theorem C145_default (lm : libm) (M : R) (eig : mat2 b64 -> b64 * b64) (range : b64) (scans : list (scan b64)) (s : scan b64) :
  accurate_trig lm -> 1 <= M <= 2000 -> upto M range -> 0 <= B2R range -> scans <> [] -> Forall (scan_upto M) scans ->
  scan_upto M s -> upto (bpow radix2 400) (poth (s_pose s)) -> (Z.of_nat (length (s_pts s)) <= 2 ^ 52)%Z ->
  exists m', add_scans (A := BA lm) eig (matcher_default (A := BA lm) range) scans = Ok m' /\
    (exists v, score_scan (A := BA lm) m' s = Ok v) /\
    (exists n, forall fuel p cov, (n < fuel)%nat -> exists r, match_scan (A := BA lm) fuel m' s p cov = Ok r).
Proof.
  intros T HM UR PR N F S H L. destruct (default_fits lm M range HM UR PR) as (U & Fi & B & W1 & W2).
  destruct (C145_build lm M eig _ scans T U Fi N F) as (m' & E). exists m'. split; [exact E|]. split.
  - apply (C145_score lm M eig _ m' scans (s_pts s) (s_pose s) T U Fi N F E (proj1 S) (proj2 S) B L).
  - apply (C145_match lm M eig _ m' scans s T U Fi N F E S H B L W1 W2).
Qed.

Example C145_nonvacuous (lm : libm) (eig : mat2 b64 -> b64 * b64) :
  exists m' v r, accurate_trig (with_nearest lm) /\ scan_upto 8 place_scan /\
    add_scans (A := BA (with_nearest lm)) eig (matcher_default (A := BA (with_nearest lm)) (b64_of 5 0)) [place_scan] = Ok m' /\
    score_scan (A := BA (with_nearest lm)) m' place_scan = Ok v /\
    exists fuel, match_scan (A := BA (with_nearest lm)) fuel m' place_scan place_pose (mat3_zero (A := BA (with_nearest lm))) = Ok r.
Proof.
  assert (S : scan_upto 8 place_scan).
  { split; [repeat split; try reflexivity; apply b64_of_small; lia|constructor; [|constructor]; split; apply b64_of_small; lia]. }
  destruct (C145_default (with_nearest lm) 8 eig (b64_of 5 0) [place_scan] place_scan) as (m' & E & (v & V) & (n & K)); try assumption.
  - apply nearest_accurate.
  - lra.
  - apply b64_of_small. lia.
  - destruct (b64_ofZ 5 ltac:(lia)) as [-> _]. lra.
  - discriminate.
  - constructor; [exact S|constructor].
  - destruct (b64_ofZ 1 ltac:(lia)) as [V F]. split; [exact F|]. change (poth (s_pose place_scan)) with (b64_of 1 0). rewrite V, Rabs_R1.
    change 1 with (bpow radix2 0). apply bpow_le. lia.
  - cbn. lia.
  - destruct (K (Datatypes.S n) place_pose (mat3_zero (A := BA (with_nearest lm))) (Nat.lt_succ_diag_r n)) as (r & Er).
    exists m', v, r. split; [apply nearest_accurate|]. split; [exact S|]. split; [exact E|]. split; [exact V|]. exists (Datatypes.S n). exact Er.
Qed.
Print Assumptions C145_default.
