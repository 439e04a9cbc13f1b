(** Property C159: the occupancy grid does not depend on the order of the scans. *)

From Coq Require Import ZArith Reals List Bool Lia Lra Permutation.
From Flocq Require Import Core BinarySingleNaN.
From Verif Require Import Outcome Arith TypesModel ScanModel OccGridModel SpecGrid SpecOcc RTactics
  B64Tactics B64Lemmas NdtProofs MatcherProofs RayProofs OccProofs OccProofs2 OccWitness PropOcc.
Import ListNotations.

(** ** Steps that commute *)
Definition swaps {S X : Type} (f : S -> X -> outcome S) : Prop :=
  forall s x y s1 s2, f s x = Ok s1 -> f s1 y = Ok s2 -> exists s1', f s y = Ok s1' /\ f s1' x = Ok s2.

Lemma foldM_swap {S X} (f : S -> X -> outcome S) : swaps f -> forall a b, Permutation a b -> forall s s', foldM f s a = Ok s' -> foldM f s b = Ok s'.
Proof.
  intros C a b P. induction P as [|x a b P IH|x y a|a b c P1 IH1 P2 IH2]; intros s s' H; cbn [foldM] in *; [exact H| | |apply IH2, IH1; exact H].
  - apply bind_ok in H. destruct H as (s1 & H1 & H2). rewrite H1. cbn [bind]. apply IH. exact H2.
  - apply bind_ok in H. destruct H as (s1 & H1 & H2). apply bind_ok in H2. destruct H2 as (s2 & H2 & H3).
    destruct (C s y x s1 s2 H1 H2) as (s1' & K1 & K2). rewrite K1. cbn [bind]. rewrite K2. exact H3.
Qed.
(** A step made of several steps that commute. *)
Lemma swaps_many {S X} (f : S -> X -> outcome S) : swaps f -> swaps (fun s l => foldM f s l).
Proof.
  intros C s a b s1 s2 H1 H2. assert (H : foldM f s (a ++ b) = Ok s2) by (rewrite foldM_app, H1; exact H2).
  apply (foldM_swap f C _ (b ++ a) (Permutation_app_comm a b)) in H. rewrite foldM_app in H. apply bind_ok in H. exact H.
Qed.
Lemma swaps_through {S X Y} (f : S -> Y -> outcome S) (g : X -> outcome Y) : swaps f -> swaps (fun s x => bind (g x) (f s)).
Proof.
  intros C s x y s1 s2 H1 H2. apply bind_ok in H1. destruct H1 as (u & U & H1). apply bind_ok in H2. destruct H2 as (v & V & H2).
  destruct (C s u v s1 s2 H1 H2) as (s1' & K1 & K2). exists s1'. rewrite U, V. cbn [bind]. auto.
Qed.

Lemma nth_ext_Z : forall (a b : list Z), length a = length b -> (forall k, nth k a 0%Z = nth k b 0%Z) -> a = b.
Proof. intros a b L H. apply (nth_ext a b 0%Z 0%Z L). intros. apply H. Qed.
Lemma bump_swaps {X} (f : X -> Z) : swaps (fun v c => vec_update v (f c) (fun n => (n + 1)%Z)).
Proof.
  intros v x y v1 v2 H1 H2. pose proof (bump_inv f _ _ _ H1) as [L1 N1]. pose proof (bump_inv f _ _ _ H2) as [L2 N2].
  assert (T : forall w z, length w = length v -> (exists u u', vec_update u (f z) (fun n => (n + 1)%Z) = Ok u' /\ length u = length v) -> exists w', vec_update w (f z) (fun n => (n + 1)%Z) = Ok w').
  { intros w z Lw (u & u' & E & Lu). unfold vec_update in E. apply bind_ok in E. destruct E as (q & E & _). apply vec_get_inv in E. destruct E as [B _].
    destruct (vec_get_ok w (f z)) as (q' & E' & _); [rewrite Lw, <- Lu; exact B|]. unfold vec_update. rewrite E'. eexists. reflexivity. }
  destruct (T v y eq_refl) as (v1' & E1); [exists v1, v2; split; [exact H2|exact L1]|]. pose proof (bump_inv f _ _ _ E1) as [L1' N1'].
  destruct (T v1' x L1') as (v2' & E2); [exists v, v1; split; [exact H1|reflexivity]|]. pose proof (bump_inv f _ _ _ E2) as [L2' N2'].
  exists v1'. split; [exact E1|]. rewrite E2. f_equal. apply nth_ext_Z; [congruence|]. intro k. rewrite N2', N1', N2, N1. lia.
Qed.

Lemma ray_swaps : forall w, swaps (render_ray w).
Proof.
  intro w.
  assert (P : swaps (fun (ct : counters) (m : list gcell * gcell) =>
    bind (foldM (fun v c => vec_update v (cell_index w c) (fun n => (n + 1)%Z)) (snd ct) (fst m)) (fun empty =>
    bind (vec_update (fst ct) (cell_index w (snd m)) (fun n => (n + 1)%Z)) (fun hit => Ok (hit, empty))))).
  { intros ct x y c1 c2 H1 H2. apply bind_ok in H1. destruct H1 as (e1 & E1 & H1). apply bind_ok in H1. destruct H1 as (h1 & F1 & H1). injection H1 as <-.
    cbn [fst snd] in H2. apply bind_ok in H2. destruct H2 as (e2 & E2 & H2). apply bind_ok in H2. destruct H2 as (h2 & F2 & H2). injection H2 as <-.
    destruct (swaps_many _ (bump_swaps (cell_index w)) _ _ _ _ _ E1 E2) as (e1' & K1 & K2).
    destruct (bump_swaps (cell_index w) _ _ _ _ _ F1 F2) as (h1' & K3 & K4).
    exists (h1', e1'). rewrite K1. cbn [bind]. rewrite K3. cbn [bind fst snd]. split; [reflexivity|]. rewrite K2. cbn [bind]. rewrite K4. reflexivity. }
  intros ct x y c1 c2 H1 H2.
  destruct (swaps_through _ (fun r : gcell * gcell => trace_ray (fst r) (snd r)) P ct x y c1 c2) as (c1' & K1 & K2).
  - unfold render_ray in H1. destruct (trace_ray (fst x) (snd x)) as [[es h]|]; exact H1.
  - unfold render_ray in H2. destruct (trace_ray (fst y) (snd y)) as [[es h]|]; exact H2.
  - exists c1'. unfold render_ray. destruct (trace_ray (fst x) (snd x)) as [[es h]|]; [|discriminate K2]. destruct (trace_ray (fst y) (snd y)) as [[es' h']|]; [|discriminate K1]. split; assumption.
Qed.

(** In every arithmetic: with given bounds, the grid drawn is the same. *)
Theorem C159_drawing {T : Type} {A : Arith T} : forall (o : occ T) scans scans' m, Permutation scans scans' ->
  render o scans = Ok m -> render o scans' = Ok m.
Proof.
  intros o scans scans' m P H. unfold render in *. apply bind_ok in H. destruct H as (w & Hw & H). apply bind_ok in H. destruct H as (h & Hh & H).
  rewrite Hw. cbn [bind]. rewrite Hh. cbn [bind]. apply bind_ok in H. destruct H as (ct & Hct & H).
  eapply foldM_swap in Hct; [|apply swaps_through, swaps_many, ray_swaps|exact P]. rewrite Hct. exact H.
Qed.
Print Assumptions C159_drawing.

Local Open Scope R_scope.

(** ** Binary64 *)
(** The same number, up to the sign of zero. *)
Definition eqz (a b : b64) : Prop := a = b \/ exists s s', a = B754_zero s /\ b = B754_zero s'.
Lemma eqz_of : forall a b : b64, is_finite a = true -> is_finite b = true -> B2R a = B2R b -> eqz a b.
Proof.
  intros a b Fa Fb E. destruct (Req_dec (B2R a) 0) as [Z0|Z0].
  - right. assert (K : forall c : b64, is_finite c = true -> B2R c = 0 -> exists s, c = B754_zero s).
    { intros c Fc Ec. destruct c; try discriminate Fc; [eexists; reflexivity|]. exfalso. cbn [B2R] in Ec. destruct s; cbn [cond_Zopp] in Ec;
        apply eq_0_F2R in Ec; discriminate Ec. }
    destruct (K a Fa Z0) as (s & ->). destruct (K b Fb (eq_trans (eq_sym E) Z0)) as (s' & ->). exists s, s'. split; reflexivity.
  - left. apply B2R_inj; [..|exact E].
    + destruct a; try discriminate Fa; [exfalso; apply Z0; reflexivity|reflexivity].
    + destruct b; try discriminate Fb; [exfalso; apply Z0; rewrite E; reflexivity|reflexivity].
Qed.
Lemma eqz_div : forall a b r, eqz a b -> eqz (Bdiv mode_NE a r) (Bdiv mode_NE b r).
Proof. intros a b r [->|(s & s' & -> & ->)]; [left; reflexivity|]. destruct r; try (left; reflexivity); right; do 2 eexists; split; reflexivity. Qed.
Lemma eqz_mul : forall a b r, eqz a b -> eqz (Bmult mode_NE a r) (Bmult mode_NE b r).
Proof. intros a b r [->|(s & s' & -> & ->)]; [left; reflexivity|]. destruct r; try (left; reflexivity); right; do 2 eexists; split; reflexivity. Qed.
Lemma eqz_round : forall mode a b, eqz a b -> eqz (Bnearbyint mode a) (Bnearbyint mode b).
Proof. intros mode a b [->|(s & s' & -> & ->)]; [left; reflexivity|]. right. do 2 eexists. split; reflexivity. Qed.
Lemma zero_sum : forall s s', exists s'', Bplus mode_NE (B754_zero s : b64) (B754_zero s' : b64) = B754_zero s''.
Proof. intros [] []; eexists; reflexivity. Qed.
Lemma zero_diff : forall s s', exists s'', Bminus mode_NE (B754_zero s : b64) (B754_zero s' : b64) = B754_zero s''.
Proof. intros [] []; eexists; reflexivity. Qed.
Lemma eqz_sub : forall a b c d, eqz a b -> eqz c d -> eqz (Bminus mode_NE a c) (Bminus mode_NE b d).
Proof.
  intros a b c d [->|(s & s' & -> & ->)] [->|(u & u' & -> & ->)]; [left; reflexivity|..].
  - destruct b; try (left; reflexivity). right. destruct (zero_diff s u) as (k & ->), (zero_diff s u') as (k' & ->). exists k, k'. split; reflexivity.
  - destruct d; try (left; reflexivity). right. destruct (zero_diff s s0) as (k & ->), (zero_diff s' s0) as (k' & ->). exists k, k'. split; reflexivity.
  - right. destruct (zero_diff s u) as (k & ->), (zero_diff s' u') as (k' & ->). exists k, k'. split; reflexivity.
Qed.
(** A padding that is not zero hides the sign. *)
Definition nonzero (p : b64) : Prop := forall s, p <> B754_zero s.
Lemma eqz_add_pad : forall a b p, nonzero p -> eqz a b -> Bplus mode_NE a p = Bplus mode_NE b p.
Proof. intros a b p Np [->|(s & s' & -> & ->)]; [reflexivity|]. destruct p; try reflexivity. exfalso. exact (Np _ eq_refl). Qed.
Lemma eqz_sub_pad : forall a b p, nonzero p -> eqz a b -> Bminus mode_NE a p = Bminus mode_NE b p.
Proof. intros a b p Np [->|(s & s' & -> & ->)]; [reflexivity|]. destruct p; try reflexivity. exfalso. exact (Np _ eq_refl). Qed.
Lemma Bplus_comm64 : forall a b : b64, Bplus mode_NE a b = Bplus mode_NE b a.
Proof.
  intros [s|s| |s m e B] [s'|s'| |s' m' e' B']; try reflexivity.
  - destruct s, s'; reflexivity.
  - destruct s, s'; reflexivity.
  - cbn [Bplus]. unfold Fplus_naive. rewrite (Z.min_comm e e'), Z.add_comm. reflexivity.
Qed.
Definition positive (r : b64) : Prop := (is_finite r = true /\ 0 < B2R r) \/ r = B754_infinity false.
Lemma positive_nonzero : forall r, positive r -> nonzero r.
Proof. intros r [[_ H]| ->] s E; [rewrite E in H; cbn [B2R] in H; lra|discriminate E]. Qed.
Lemma pad_positive : forall (c : Z) r, (1 <= c <= 5)%Z -> positive r -> positive (Bmult mode_NE (b64_of c 0) r).
Proof.
  intros c r Hc P. destruct (b64_ofZ c) as [Ec Fc]; [lia|]. assert (Hc1 : 1 <= IZR c) by (apply IZR_le; lia).
  assert (Sc : Bsign (b64_of c 0) = false).
  { destruct (b64_of c 0) as [s|s| |s m e B]; try discriminate Fc; cbn [B2R Bsign] in *; [lra|]. destruct s; [|reflexivity]. exfalso.
    pose proof (F2R_lt_0 radix2 (Float radix2 (cond_Zopp true (Zpos m)) e)) as N. cbn [cond_Zopp Fnum] in N. specialize (N eq_refl). cbn [cond_Zopp] in Ec. lra. }
  destruct P as [[Fr Hr]| ->].
  - pose proof (Bmult_correct 53 1024 _ _ mode_NE (b64_of c 0) r) as H. rewrite Ec in H.
    assert (G : B2R r <= round radix2 (SpecFloat.fexp 53 1024) (round_mode mode_NE) (IZR c * B2R r)).
    { apply round_ge_generic; [apply FLT.FLT_exp_valid; reflexivity|apply valid_rnd_N|apply generic_format_B2R|nra]. }
    destruct (Rlt_bool _ _) in H.
    + destruct H as (H & F & _). left. split; [rewrite F, Fc, Fr; reflexivity|]. rewrite H. lra.
    + right. assert (Sr : Bsign r = false).
      { destruct r as [s|s| |s m e B]; try discriminate Fr; cbn [B2R Bsign] in *; [lra|]. destruct s; [|reflexivity]. exfalso.
        pose proof (F2R_lt_0 radix2 (Float radix2 (cond_Zopp true (Zpos m)) e)) as N. cbn [cond_Zopp Fnum] in N. specialize (N eq_refl). cbn [cond_Zopp] in Hr. lra. }
      rewrite Sc, Sr in H. destruct (Bmult mode_NE (b64_of c 0) r) as [s|s| |s m e B]; try discriminate H. destruct s; [discriminate H|reflexivity].
  - right. destruct (b64_of c 0) as [s|s| |s m e B]; try discriminate Fc; cbn [B2R Bsign] in *; [lra|]. subst s. reflexivity.
Qed.
Lemma foldM_each {S X} (f : S -> X -> outcome S) : forall l s s', foldM f s l = Ok s' -> forall x, In x l -> exists s1 s2, f s1 x = Ok s2.
Proof.
  induction l as [|y l IH]; intros s s' H x I; [destruct I|]. cbn [foldM] in H. apply bind_ok in H. destruct H as (s1 & H1 & H2).
  destruct I as [->|I]; [exists s, s1; exact H1|exact (IH _ _ H2 x I)].
Qed.
Lemma mapM_each {X Y} (f : X -> outcome Y) : forall l l', mapM f l = Ok l' -> forall x, In x l -> exists y, f x = Ok y.
Proof.
  induction l as [|y l IH]; intros l' H x I; [destruct I|]. cbn [mapM] in H. apply bind_ok in H. destruct H as (z & H1 & H2). apply bind_ok in H2. destruct H2 as (l1 & H2 & _).
  destruct I as [->|I]; [exists z; exact H1|exact (IH _ H2 x I)].
Qed.
Lemma cell_finite (lm : libm) : forall (x o r : b64) z, cast_int32 (A := BA lm) (Bdiv mode_NE (Bminus mode_NE x o) r) = Ok z -> is_finite x = true.
Proof.
  intros x o r z H. destruct x as [s|s| |s m e B]; try reflexivity; exfalso; unfold cast_int32 in H; cbn [ntrunc BA] in H.
  - destruct o as [u|u| |u mu eu Bu]; try (destruct r; discriminate H). destruct s, u, r; discriminate H.
  - destruct o; destruct r; discriminate H.
Qed.

(** Where the obstacles of the scans are, as OccupancyGrid computes it. *)
Definition placed {T} {A : Arith T} (scans : list (scan T)) : list (point T) := flat_map (fun s => map (place (s_pose s)) (s_pts s)) scans.
Lemma drawn_finite (lm : libm) : forall (o : occ b64) scans m, render (A := BA lm) o scans = Ok m ->
  forall p, In p (placed (A := BA lm) scans) -> is_finite (px p) = true /\ is_finite (py p) = true.
Proof.
  intros o scans m H p I. unfold placed in I. apply in_flat_map in I. destruct I as (s & Is & I). apply in_map_iff in I. destruct I as (q & <- & Iq).
  unfold render in H. apply bind_ok in H. destruct H as (w & _ & H). apply bind_ok in H. destruct H as (h & _ & H). apply bind_ok in H. destruct H as (ct & H & _).
  destruct (foldM_each _ _ _ _ H s Is) as (c1 & c2 & K). apply bind_ok in K. destruct K as (rays & K & _).
  unfold scan_rays in K. apply bind_ok in K. destruct K as (st & _ & K). destruct (mapM_each _ _ _ K q Iq) as (e & E). apply bind_ok in E. destruct E as (en & E & _).
  unfold pos_cell in E. apply bind_ok in E. destruct E as (cx & E1 & E). apply bind_ok in E. destruct E as (cy & E2 & _).
  cbn [nadd nsub nmul ndiv ncos nsin BA] in E1, E2. apply cell_finite in E1. apply cell_finite in E2.
  unfold place. cbn [px py nadd nsub nmul ncos nsin BA]. rewrite (Bplus_comm64 (pox (s_pose s))), (Bplus_comm64 (poy (s_pose s))). split; assumption.
Qed.

(** The bounds of a fresh grid. *)
Lemma bounds_fold {T} {A : Arith T} : forall scans o, fold_left bound_scan scans o = fold_left bound_point (placed scans) o.
Proof.
  induction scans as [|s scans IH]; intro o; [reflexivity|]. cbn [fold_left]. rewrite IH. unfold placed. cbn [flat_map]. rewrite fold_left_app. f_equal.
  unfold bound_scan. generalize (s_pts s) as l. intro l. revert o. induction l as [|q l IHl]; intro o; [reflexivity|]. cbn [fold_left map]. apply IHl.
Qed.
Lemma points_fold {T} {A : Arith T} : forall l o, fold_left bound_point l o =
  mkOcc (og_res o) (og_thresh o) (fold_left (fun z v => nmin v z) (map px l) (og_minx o)) (fold_left (fun z v => nmax v z) (map px l) (og_maxx o))
    (fold_left (fun z v => nmin v z) (map py l) (og_miny o)) (fold_left (fun z v => nmax v z) (map py l) (og_maxy o)) (og_num o).
Proof. induction l as [|p l IH]; intros [r th a b c d n]; [reflexivity|]. cbn [fold_left map]. rewrite IH. reflexivity. Qed.
Lemma min_fold (lm : libm) : forall l z, (forall v, In v l -> is_finite v = true) -> is_finite z = true ->
  let r := fold_left (fun z v => nmin (A := BA lm) v z) l z in is_finite r = true /\ B2R r = fold_left Rmin (map B2R l) (B2R z).
Proof.
  induction l as [|v l IH]; intros z Hl Hz; [split; [exact Hz|reflexivity]|]. cbn [fold_left map]. pose proof (Hl v (or_introl eq_refl)) as Hv.
  assert (M : is_finite (nmin (A := BA lm) v z) = true /\ B2R (nmin (A := BA lm) v z) = Rmin (B2R z) (B2R v)).
  { unfold nmin. cbn [nlt BA]. rewrite Bltb_correct by assumption. destruct (Rlt_bool_spec (B2R z) (B2R v)); split; try assumption; [rewrite Rmin_left|rewrite Rmin_right]; lra. }
  destruct M as [M1 M2]. rewrite <- M2. apply IH; [intros u Iu; apply Hl; right; exact Iu|exact M1].
Qed.
Lemma max_fold (lm : libm) : forall l z, (forall v, In v l -> is_finite v = true) -> is_finite z = true ->
  let r := fold_left (fun z v => nmax (A := BA lm) v z) l z in is_finite r = true /\ B2R r = fold_left Rmax (map B2R l) (B2R z).
Proof.
  induction l as [|v l IH]; intros z Hl Hz; [split; [exact Hz|reflexivity]|]. cbn [fold_left map]. pose proof (Hl v (or_introl eq_refl)) as Hv.
  assert (M : is_finite (nmax (A := BA lm) v z) = true /\ B2R (nmax (A := BA lm) v z) = Rmax (B2R z) (B2R v)).
  { unfold nmax. cbn [nlt BA]. rewrite Bltb_correct by assumption. destruct (Rlt_bool_spec (B2R v) (B2R z)); split; try assumption; [rewrite Rmax_left|rewrite Rmax_right]; lra. }
  destruct M as [M1 M2]. rewrite <- M2. apply IH; [intros u Iu; apply Hl; right; exact Iu|exact M1].
Qed.
Lemma fold_perm : forall (f : R -> R -> R), (forall a b c, f (f a b) c = f (f a c) b) -> forall a b, Permutation a b -> forall z, fold_left f a z = fold_left f b z.
Proof.
  intros f C a b P. induction P as [|x a b P IH|x y a|a b c P1 IH1 P2 IH2]; intro z; cbn [fold_left]; [reflexivity|apply IH|rewrite C; reflexivity|rewrite IH1; apply IH2].
Qed.
Lemma min_perm (lm : libm) : forall a b z, Permutation a b -> (forall v, In v a -> is_finite v = true) -> is_finite z = true ->
  eqz (fold_left (fun z v => nmin (A := BA lm) v z) a z) (fold_left (fun z v => nmin (A := BA lm) v z) b z).
Proof.
  intros a b z P Ha Hz. destruct (min_fold lm a z Ha Hz) as [F1 E1]. destruct (min_fold lm b z) as [F2 E2]; [intros v Iv; apply Ha; exact (Permutation_in _ (Permutation_sym P) Iv)|exact Hz|].
  apply eqz_of; [exact F1|exact F2|]. rewrite E1, E2. apply fold_perm; [|apply Permutation_map; exact P]. intros u v w. unfold Rmin. repeat destruct (Rle_dec _ _); lra.
Qed.
Lemma max_perm (lm : libm) : forall a b z, Permutation a b -> (forall v, In v a -> is_finite v = true) -> is_finite z = true ->
  eqz (fold_left (fun z v => nmax (A := BA lm) v z) a z) (fold_left (fun z v => nmax (A := BA lm) v z) b z).
Proof.
  intros a b z P Ha Hz. destruct (max_fold lm a z Ha Hz) as [F1 E1]. destruct (max_fold lm b z) as [F2 E2]; [intros v Iv; apply Ha; exact (Permutation_in _ (Permutation_sym P) Iv)|exact Hz|].
  apply eqz_of; [exact F1|exact F2|]. rewrite E1, E2. apply fold_perm; [|apply Permutation_map; exact P]. intros u v w. unfold Rmax. repeat destruct (Rle_dec _ _); lra.
Qed.

(** In doubles: the message of a fresh grid. *)
Theorem C159_published_b64 (lm : libm) : forall res thresh scans scans' o m, is_finite res = true -> 0 < B2R res -> Permutation scans scans' ->
  occ_get_msg (A := BA lm) (occ_new (A := BA lm) res thresh) scans = Ok (o, m) ->
  exists o', occ_get_msg (A := BA lm) (occ_new (A := BA lm) res thresh) scans' = Ok (o', m).
Proof.
  intros res thresh scans scans' o m Fr Hr P H. unfold occ_get_msg in *. cbv zeta in *. apply bind_ok in H. destruct H as (m0 & H & E). injection E as <- <-.
  set (o1 := refresh (A := BA lm) (occ_new (A := BA lm) res thresh) scans) in *.
  set (o2 := refresh (A := BA lm) (occ_new (A := BA lm) res thresh) scans').
  pose proof (drawn_finite lm _ _ _ H) as Fin. apply (C159_drawing (A := BA lm) _ _ _ _ P) in H.
  assert (Q : og_res o2 = og_res o1 /\ og_res o1 = res /\ og_thresh o2 = og_thresh o1 /\ eqz (og_minx o1) (og_minx o2) /\ eqz (og_maxx o1) (og_maxx o2) /\ eqz (og_miny o1) (og_miny o2) /\ eqz (og_maxy o1) (og_maxy o2)).
  { unfold o1, o2, refresh. rewrite <- (Permutation_length P). change (og_num (occ_new (A := BA lm) res thresh)) with 0%nat. destruct (Nat.eqb _ _).
    { repeat split; try (left; reflexivity). }
    unfold update_bounds. change (og_num (occ_new (A := BA lm) res thresh)) with 0%nat. cbn [skipn]. rewrite !(bounds_fold (A := BA lm)), !(points_fold (A := BA lm)).
    assert (W : Permutation (placed (A := BA lm) scans) (placed (A := BA lm) scans')) by (apply Permutation_flat_map; exact P).
    unfold snap. cbn [og_res og_thresh og_minx og_maxx og_miny og_maxy occ_new nmul ndiv nfloor nceil BA].
    split; [reflexivity|]. split; [reflexivity|]. split; [reflexivity|].
    assert (Fx : forall v, In v (map px (placed (A := BA lm) scans)) -> is_finite v = true) by (intros v Iv; apply in_map_iff in Iv; destruct Iv as (p & <- & Ip); exact (proj1 (Fin p Ip))).
    assert (Fy : forall v, In v (map py (placed (A := BA lm) scans)) -> is_finite v = true) by (intros v Iv; apply in_map_iff in Iv; destruct Iv as (p & <- & Ip); exact (proj2 (Fin p Ip))).
    repeat split; apply eqz_mul, eqz_round, eqz_div; (apply min_perm || apply max_perm); try (apply Permutation_map; exact W); try assumption; reflexivity. }
  destruct Q as (E1 & E2 & E3 & Ex & EX & Ey & EY). exists o2.
  assert (R : render (A := BA lm) o2 scans' = render (A := BA lm) o1 scans').
  { assert (P5 : positive (Bmult mode_NE (b64_of 5 0) res)) by (apply pad_positive; [lia|left; split; assumption]). pose proof (positive_nonzero _ P5) as N5.
    assert (N2 : nonzero (Bmult mode_NE (b64_of 2 0) (Bmult mode_NE (b64_of 5 0) res))) by (apply positive_nonzero, pad_positive; [lia|exact P5]).
    unfold render. cbv zeta. cbn [nadd nsub nmul ndiv nofZ BA]. rewrite E1, E3, E2.
    rewrite (eqz_add_pad _ _ _ N2 (eqz_sub _ _ _ _ EX Ex)), (eqz_add_pad _ _ _ N2 (eqz_sub _ _ _ _ EY Ey)), (eqz_sub_pad _ _ _ N5 Ex), (eqz_sub_pad _ _ _ N5 Ey). reflexivity. }
  rewrite R, H. reflexivity.
Qed.
Print Assumptions C159_published_b64.


(** ** Exact arithmetic *)
Lemma batch_perm : forall res thresh a b, Permutation a b -> batch res thresh a = batch res thresh b.
Proof.
  intros res thresh a b P. assert (W : Permutation (worlds a) (worlds b)) by (apply Permutation_flat_map; exact P).
  assert (Lo : forall f : point R -> R, lowest (map f (worlds a)) = lowest (map f (worlds b))).
  { intro f. apply fold_perm; [|apply Permutation_map; exact W]. intros u v w. unfold Rmin. repeat destruct (Rle_dec _ _); lra. }
  assert (Hi : forall f : point R -> R, highest (map f (worlds a)) = highest (map f (worlds b))).
  { intro f. apply fold_perm; [|apply Permutation_map; exact W]. intros u v w. unfold Rmax. repeat destruct (Rle_dec _ _); lra. }
  unfold batch. rewrite !Lo, !Hi, (Permutation_length P). reflexivity.
Qed.

(** In exact arithmetic: also the bounds. *)
Theorem C159_published : forall res thresh scans scans' o m, 0 < res -> Permutation scans scans' ->
  occ_get_msg (occ_new res thresh) scans = Ok (o, m) -> occ_get_msg (occ_new res thresh) scans' = Ok (o, m).
Proof.
  intros res thresh scans scans' o m Hr P H. rewrite (new_batch res Hr thresh) in *. unfold occ_get_msg in *. cbv zeta in *.
  pose proof (refresh_batch res Hr thresh [] scans) as E. pose proof (refresh_batch res Hr thresh [] scans') as E'. cbn [app] in E, E'.
  rewrite E in H. rewrite E', <- (batch_perm res thresh scans scans' P). apply bind_ok in H. destruct H as (m0 & H1 & H2). injection H2 as <- <-.
  rewrite (C159_drawing _ scans scans' m0 P H1). reflexivity.
Qed.
Print Assumptions C159_published.

(** Two scans from different places seeing the same obstacle. *)
Example C159_nonvacuous : let a := ray_scan 0 3 in let b := ray_scan 1 2 in [a; b] <> [b; a] /\
  exists o m, occ_get_msg (occ_new 1 (1 / 2)) [a; b] = Ok (o, m) /\ om_data m <> [] /\ covers m (mkPoint 3 0).
Proof.
  cbv zeta. split. { intro E. injection E as E. lra. }
  assert (F : grid_fits (batch 1 (1 / 2) [ray_scan 0 3; ray_scan 1 2])).
  { apply batch_fits; [lra|]. unfold worlds. cbn [flat_map]. rewrite !ray_scan_world. cbn [app map px py].
    replace (2 + 1) with (3 + 0) by ring. unfold lowest, highest. cbn [fold_left]. rewrite !(Rmin_left 0 0), !(Rmax_left 0 0) by lra.
    rewrite !(Rmin_left 0 (3 + 0)), !(Rmax_right 0 (3 + 0)), !(Rmax_left (3 + 0) (3 + 0)) by lra.
    replace (0 / 1) with 0 by field. replace ((3 + 0) / 1) with (IZR 3) by field.
    rewrite !(Zfloor_IZR 0), !(Zceil_IZR 0), Zceil_IZR. reflexivity. }
  destruct (C40_grid_contains_scans_partial 1 (1 / 2) _ Rlt_0_1 F) as (m & M & L & (i & j & W & H & _) & Cv & _).
  - intros s [<-|[<-|[]]].
    + replace (sensor (ray_scan 0 3)) with (mkPoint 0 0) by reflexivity. apply batch_inside; [lra|left; reflexivity].
    + replace (sensor (ray_scan 1 2)) with (mkPoint 1 0) by reflexivity.
      destruct (batch_inside 1 (1 / 2) [ray_scan 0 3; ray_scan 1 2] (mkPoint 0 0) Rlt_0_1 (or_introl eq_refl)) as [I1 I2].
      destruct (batch_inside 1 (1 / 2) [ray_scan 0 3; ray_scan 1 2] (mkPoint (3 + 0) 0) Rlt_0_1) as [J1 J2];
        [right; unfold worlds; cbn [flat_map]; rewrite !ray_scan_world; left; reflexivity|].
      unfold inside. cbn [px py] in *. split; lra.
  - eexists. exists m. split; [exact M|]. split.
    + intro E. rewrite E in L. cbn in L. assert (0 < om_width m * om_height m)%Z by nia. lia.
    + apply Cv. unfold worlds. cbn [flat_map]. rewrite !ray_scan_world. left. f_equal. ring.
Qed.
