(** C136: rendering the occupancy grid in double arithmetic. *)

From Coq Require Import ZArith Reals List Bool Lia Lra Psatz.
From Flocq Require Import Core BinarySingleNaN.
From Verif Require Import Outcome Arith TypesModel ScanModel OccGridModel SpecGrid SpecOcc MatcherB64 OccProofs OccProofs2
  B64Tactics B64Lemmas CellB64 SpecMotion64 SpecPlace64 NearB64 NearestB64 PropAngle64 PropPlace64 SpecOcc64 OccB64.
Import ListNotations.
Local Open Scope R_scope.

(** ** The bounds as folds *)
Section Fields.
Context {T : Type} {A : Arith T}.
Definition placed_points (scans : list (scan T)) : list (point T) := flat_map (fun s => map (place (s_pose s)) (s_pts s)) scans.

Lemma bound_fields (scans : list (scan T)) (o : occ T) : let o' := fold_left bound_scan scans o in
  og_res o' = og_res o /\
  og_minx o' = fold_left (fun a x => nmin x a) (map px (placed_points scans)) (og_minx o) /\
  og_maxx o' = fold_left (fun a x => nmax x a) (map px (placed_points scans)) (og_maxx o) /\
  og_miny o' = fold_left (fun a x => nmin x a) (map py (placed_points scans)) (og_miny o) /\
  og_maxy o' = fold_left (fun a x => nmax x a) (map py (placed_points scans)) (og_maxy o).
Proof.
  revert o. induction scans as [|s scans IH]; intros o o'; [repeat split; reflexivity|].
  unfold o'. cbn [fold_left]. specialize (IH (bound_scan o s)). cbv zeta in IH. destruct IH as (I0 & I1 & I2 & I3 & I4).
  rewrite I0, I1, I2, I3, I4. unfold placed_points. cbn [flat_map]. rewrite !map_app, !fold_left_app.
  assert (B : forall pts q, let q' := fold_left (fun o q => bound_point o (place (s_pose s) q)) pts q in
    og_res q' = og_res q /\
    og_minx q' = fold_left (fun a x => nmin x a) (map px (map (place (s_pose s)) pts)) (og_minx q) /\
    og_maxx q' = fold_left (fun a x => nmax x a) (map px (map (place (s_pose s)) pts)) (og_maxx q) /\
    og_miny q' = fold_left (fun a x => nmin x a) (map py (map (place (s_pose s)) pts)) (og_miny q) /\
    og_maxy q' = fold_left (fun a x => nmax x a) (map py (map (place (s_pose s)) pts)) (og_maxy q)).
  { induction pts as [|p pts IHp]; intros q q'; [repeat split; reflexivity|].
    unfold q'. cbn [fold_left map]. specialize (IHp (bound_point q (place (s_pose s) p))). exact IHp. }
  destruct (B (s_pts s) o) as (B0 & B1 & B2 & B3 & B4). unfold bound_scan. rewrite B0, B1, B2, B3, B4. repeat split; reflexivity.
Qed.
End Fields.

(** ** Exact and computed positions *)
Lemma move_seen (p : pose b64) (q : point b64) :
  px (move (real_pose p) (real_point q)) = seen_x p q /\ py (move (real_pose p) (real_point q)) = seen_y p q.
Proof. unfold move, seen_x, seen_y. cbn [px py pox poy poth real_pose real_point]. split; ring. Qed.

Lemma obstacles_app (a b : list (scan b64)) : obstacles (a ++ b) = obstacles a ++ obstacles b.
Proof. unfold obstacles, worlds. rewrite map_app, flat_map_app. reflexivity. Qed.

Definition sized (r : R) (scans : list (scan b64)) : Prop :=
  Forall (fun s => pose_upto (bpow radix2 29 * r) (s_pose s) /\ Forall (point_upto (bpow radix2 29 * r)) (s_pts s)) scans.

Lemma p49 (r : R) : bpow radix2 (-49) * (bpow radix2 29 * r) = / 4 * tiny * r.
Proof. rewrite <- Rmult_assoc, <- bpow_plus. rewrite tiny_val. change (bpow radix2 (-49 + 29)) with (/ 1048576). lra. Qed.

Section Draw.
Context (lm : libm) (HT : accurate_trig lm) (res : b64) (r : R) (Fr : is_finite res = true) (Er : B2R res = r) (Ur : usual_cell r).
Lemma P : 0 < r. Proof. exact (cell_pos r Ur). Qed.
Lemma H29 : usual_size (bpow radix2 29 * r). Proof. apply cell_size; [exact Ur|lia]. Qed.
Lemma H32 : usual_size (bpow radix2 32 * r). Proof. exact (HH r Ur). Qed.

Lemma placed_close (scans : list (scan b64)) : sized r scans ->
  Forall2 (close (/ 4 * tiny * r)) (map px (placed_points (A := BA lm) scans)) (map px (obstacles scans)) /\
  Forall2 (close (/ 4 * tiny * r)) (map py (placed_points (A := BA lm) scans)) (map py (obstacles scans)).
Proof.
  intros S. induction S as [|s scans (HP & HQ) S IH]; [split; constructor|].
  change (obstacles (s :: scans)) with (world (real_scan s) ++ obstacles scans). unfold placed_points. cbn [flat_map].
  fold (placed_points (A := BA lm) scans). rewrite !map_app. destruct IH as [IX IY].
  assert (G : Forall2 (close (/ 4 * tiny * r)) (map px (map (place (A := BA lm) (s_pose s)) (s_pts s))) (map px (world (real_scan s))) /\
              Forall2 (close (/ 4 * tiny * r)) (map py (map (place (A := BA lm) (s_pose s)) (s_pts s))) (map py (world (real_scan s)))).
  { unfold world. cbn [s_pts s_pose real_scan]. induction HQ as [|q pts Hq HQ IHq]; [split; constructor|]. cbn [map].
    destruct (place64 lm _ (s_pose s) q HT H29 HP Hq) as [LX LY]. rewrite p49 in LX, LY.
    destruct (move_seen (s_pose s) q) as [MX MY]. rewrite MX, MY. destruct IHq. split; constructor; assumption. }
  destruct G. split; apply Forall2_app; assumption.
Qed.

Lemma obstacles_moderate (scans : list (scan b64)) : sized r scans ->
  moderate r (map px (obstacles scans)) /\ moderate r (map py (obstacles scans)).
Proof.
  intros S.
  assert (B : forall c a s b p, Rabs c <= 1 -> Rabs s <= 1 -> Rabs a <= bpow radix2 29 * r -> Rabs b <= bpow radix2 29 * r -> Rabs p <= bpow radix2 29 * r ->
    Rabs (c * a - s * b + p) <= bpow radix2 31 * r /\ Rabs (c * a + s * b + p) <= bpow radix2 31 * r).
  { intros c a s b p C S0 A B Q. change (bpow radix2 29) with 536870912 in *. change (bpow radix2 31) with 2147483648.
    assert (Rabs (c * a) <= 536870912 * r). { rewrite Rabs_mult. pose proof (Rabs_pos a). assert (Rabs c * Rabs a <= 1 * Rabs a) by (apply Rmult_le_compat_r; lra). lra. }
    assert (Rabs (s * b) <= 536870912 * r). { rewrite Rabs_mult. pose proof (Rabs_pos b). assert (Rabs s * Rabs b <= 1 * Rabs b) by (apply Rmult_le_compat_r; lra). lra. }
    pose proof P as P'. split; apply Rabs_le; repeat match goal with H : Rabs _ <= _ |- _ => apply Rabs_le_inv in H end; lra. }
  assert (G : forall p, In p (obstacles scans) -> Rabs (px p) <= bpow radix2 31 * r /\ Rabs (py p) <= bpow radix2 31 * r).
  { intros p Hp. unfold obstacles, worlds in Hp. apply in_flat_map in Hp. destruct Hp as (s' & Hs & Hp). apply in_map_iff in Hs. destruct Hs as (s & <- & Hs).
    unfold world in Hp. cbn [s_pts s_pose real_scan] in Hp. rewrite map_map in Hp. apply in_map_iff in Hp. destruct Hp as (q & <- & Hq).
    unfold sized in S. rewrite Forall_forall in S. destruct (S s Hs) as ((PX & PY & _) & HQ). rewrite Forall_forall in HQ. destruct (HQ q Hq) as [QX QY].
    unfold move. cbn [px py pox poy poth real_pose real_point].
    pose proof (COS_bound (B2R (poth (s_pose s)))). pose proof (SIN_bound (B2R (poth (s_pose s)))).
    split; apply B; try (apply Rabs_le; assumption); first [apply QX|apply QY|apply PX|apply PY]. }
  split; intros v Hv; apply in_map_iff in Hv; destruct Hv as (p & <- & Hp); apply G; exact Hp.
Qed.

(** ** The state *)
Definition bounds_ok (scans : list (scan b64)) (n : nat) (o : occ b64) (k0 k1 j0 j1 : Z) : Prop :=
  og_res o = res /\ og_num o = length scans /\
  lower r (map px (obstacles scans)) n (og_minx o) k0 /\ upper r (map px (obstacles scans)) n (og_maxx o) k1 /\
  lower r (map py (obstacles scans)) n (og_miny o) j0 /\ upper r (map py (obstacles scans)) n (og_maxy o) j1.

Lemma bounds_new (thresh : b64) : bounds_ok [] 0 (occ_new (A := BA lm) res thresh) 0 0 0 0.
Proof.
  split; [reflexivity|]. split; [reflexivity|].
  split; [apply lower_new; exact Ur|]. split; [apply upper_new; exact Ur|]. split; [apply lower_new; exact Ur|apply upper_new; exact Ur].
Qed.

Lemma refresh_bounds (l new : list (scan b64)) (n : nat) (o : occ b64) (k0 k1 j0 j1 : Z) : sized r (l ++ new) -> INR (S n) <= bpow radix2 30 ->
  bounds_ok l n o k0 k1 j0 j1 -> exists k0' k1' j0' j1', bounds_ok (l ++ new) (S n) (refresh (A := BA lm) o (l ++ new)) k0' k1' j0' j1'.
Proof.
  intros HS N (ER & EN & LX & UX & LY & UY). unfold refresh. rewrite EN, app_length. destruct (Nat.eqb_spec (length l + length new) (length l)) as [E|E].
  - assert (new = []) by (destruct new; [reflexivity|cbn [length] in E; lia]). subst new. rewrite app_nil_r. exists k0, k1, j0, j1.
    split; [exact ER|]. split; [exact EN|].
    destruct LX as (? & ?). destruct UX as (? & ?). destruct LY as (? & ?). destruct UY as (? & ?).
    split; [split; [apply snapped_more; assumption|assumption]|]. split; [split; [apply snapped_more; assumption|assumption]|].
    split; (split; [apply snapped_more; assumption|assumption]).
  - clear E. unfold update_bounds. rewrite EN, skipn_app, skipn_all, Nat.sub_diag. cbn [skipn app].
    destruct (obstacles_moderate (l ++ new) HS) as [MX MY]. rewrite obstacles_app, map_app in MX, MY.
    assert (HN : sized r new) by (unfold sized in *; apply Forall_app in HS; apply HS).
    destruct (placed_close new HN) as [CX CY].
    destruct (bound_fields (A := BA lm) new o) as (B0 & B1 & B2 & B3 & B4).
    destruct (lower_step lm res r Fr Er Ur _ _ _ n _ k0 MX N CX LX) as (k0' & LX').
    destruct (upper_step lm res r Fr Er Ur _ _ _ n _ k1 MX N CX UX) as (k1' & UX').
    destruct (lower_step lm res r Fr Er Ur _ _ _ n _ j0 MY N CY LY) as (j0' & LY').
    destruct (upper_step lm res r Fr Er Ur _ _ _ n _ j1 MY N CY UY) as (j1' & UY').
    exists k0', k1', j0', j1'. unfold bounds_ok, snap. cbn [og_res og_num og_minx og_maxx og_miny og_maxy].
    rewrite B0, B1, B2, B3, B4, ER. rewrite app_length, obstacles_app, !map_app. cbn [nfloor nceil nmul ndiv BA].
    split; [reflexivity|]. split; [reflexivity|]. split; [exact LX'|]. split; [exact UX'|]. split; [exact LY'|exact UY'].
Qed.

(** ** One axis of the grid *)
Lemma lowest_neg (V : list R) : lowest (map Ropp V) = - highest V.
Proof.
  unfold lowest, highest. assert (G : forall V a, fold_left Rmin (map Ropp V) (- a) = - fold_left Rmax V a).
  { clear. induction V as [|v V IH]; intros a; cbn [fold_left map]; [reflexivity|]. rewrite <- IH. f_equal.
    unfold Rmin, Rmax. destruct (Rle_dec (- a) (- v)), (Rle_dec a v); lra. }
  rewrite <- G. f_equal. lra.
Qed.
Lemma lowest_in (V : list R) : lowest V = 0 \/ In (lowest V) V.
Proof.
  unfold lowest. assert (G : forall V a, fold_left Rmin V a = a \/ In (fold_left Rmin V a) V).
  { clear. induction V as [|v V IH]; intros a; cbn [fold_left]; [left; reflexivity|]. destruct (IH (Rmin a v)) as [E|E]; [|right; right; exact E].
    rewrite E. unfold Rmin. destruct (Rle_dec a v); [left; reflexivity|right; left; reflexivity]. }
  apply G.
Qed.
Lemma snapped_lowest (V : list R) (n : nat) (k : Z) : snapped r V n k -> IZR k <= lowest V / r + tiny.
Proof.
  intros (K & KV & _). destruct (lowest_in V) as [E|I]; [|apply KV; exact I]. rewrite E. apply IZR_le in K.
  replace (0 / r) with 0 by (field; pose proof P; lra). rewrite tiny_val. lra.
Qed.

Section Axis.
Context (V : list R) (n N : nat) (lo hi : b64) (k0 k1 : Z) (HL : lower r V n lo k0) (HU : upper r V n hi k1)
  (HM : moderate r V) (HN : (n <= N)%nat) (Hroom : room r N V <= bpow radix2 31 / 14) (Hn : INR N <= bpow radix2 30).

Lemma axis_nN : INR n <= INR N. Proof. apply le_INR. exact HN. Qed.
Lemma axis_k0 : -3300000000 <= IZR k0 <= 0.
Proof. apply (snapped_size r P H32 V n); [exact HM|pose proof axis_nN; lra|apply HL]. Qed.
Lemma axis_k1 : 0 <= IZR k1 <= 3300000000.
Proof.
  assert (B : -3300000000 <= IZR (- k1) <= 0).
  { apply (snapped_size r P H32 (map Ropp V) n); [apply moderate_neg; exact HM|pose proof axis_nN; lra|apply HU]. }
  rewrite opp_IZR in B. lra.
Qed.
Lemma axis_count : IZR (k1 - k0) + 13 <= room r N V.
Proof.
  destruct HL as ((_ & _ & L) & _). destruct HU as ((_ & _ & U) & _). rewrite lowest_neg, opp_IZR in U. rewrite minus_IZR.
  pose proof axis_nN. unfold room. rewrite tiny_val in *.
  replace (- highest V / r) with (- (highest V / r)) in U by (field; pose proof P; lra).
  replace ((highest V - lowest V) / r) with (highest V / r - lowest V / r) by (field; pose proof P; lra). lra.
Qed.
Lemma axis_small : IZR (k1 - k0) <= 153391677.
Proof. pose proof axis_count. change (bpow radix2 31) with 2147483648 in Hroom. lra. Qed.

Let pad : b64 := Bmult mode_NE (b64_of 5 0) res.
Lemma pad_near : near (bpow radix2 32 * r) 2 1 pad (IZR 5 * r).
Proof.
  destruct (b64_ofZ 5) as [V5 F5]; [lia|]. assert (B : Rabs (IZR 5) <= bpow radix2 32) by (rewrite p32, Rabs_pos_eq; lra).
  destruct (res_mul res r Fr Er Ur _ 5 F5 V5 B) as [F E]. apply mult_near; [exact Ur|exact B|exact F|exact E].
Qed.
Lemma pad2_near : near (bpow radix2 32 * r) 6 1 (Bmult mode_NE (b64_of 2 0) pad) (10 * r).
Proof.
  destruct (b64_ofZ 2) as [V2 F2]; [lia|]. destruct pad_near as (F & E & _). rewrite uH in E. pose proof P as P'.
  assert (B : Rabs (B2R (b64_of 2 0) * B2R pad) <= 1 * (bpow radix2 32 * r)).
  { rewrite V2, p32. apply Rabs_le. apply Rabs_le_inv in E. lra. }
  destruct (b64_mul_ok (b64_of 2 0) pad F2 F) as [W G].
  { eapply Rle_trans; [exact B|]. rewrite Rmult_1_l. eapply Rle_trans; [apply H32|]. apply bpow_le. lia. }
  pose proof (near_rnd _ H32 1 _ ltac:(lra) B) as EE. rewrite <- W, V2 in EE. rewrite uH in EE.
  split; [exact G|]. rewrite uH. split; [|rewrite p32; apply Rabs_le; lra].
  apply Rabs_le. apply Rabs_le_inv in E. apply Rabs_le_inv in EE. lra.
Qed.
Lemma lo_near : near (bpow radix2 32 * r) 2 1 lo (IZR k0 * r).
Proof. pose proof axis_k0. destruct HL as (_ & F & E). apply mult_near; [exact Ur|rewrite p32; apply Rabs_le; lra|exact F|exact E]. Qed.
Lemma hi_near : near (bpow radix2 32 * r) 2 1 hi (IZR k1 * r).
Proof. pose proof axis_k1. destruct HU as (_ & F & E). apply mult_near; [exact Ur|rewrite p32; apply Rabs_le; lra|exact F|exact E]. Qed.

Lemma axis_dim : exists w, cast_unsigned (A := BA lm) 32 (Bdiv mode_NE (Bplus mode_NE (Bminus mode_NE hi lo) (Bmult mode_NE (b64_of 2 0) pad)) res) = Ok w /\
  (k1 - k0 + 9 <= w <= k1 - k0 + 10)%Z.
Proof.
  pose proof hi_near as NH. pose proof lo_near as NL. near_op near_sub (bpow radix2 32 * r) H32 NH NL D.
  pose proof pad2_near as NP. near_op near_add (bpow radix2 32 * r) H32 D NP W. clear NH NL D NP.
  pose proof axis_small as KS. pose proof axis_k0 as K0. pose proof axis_k1 as K1. pose proof P as P'.
  assert (EV : IZR k1 * r - IZR k0 * r + 10 * r = IZR (k1 - k0 + 10) * r) by (rewrite plus_IZR, minus_IZR; ring). rewrite EV in W.
  assert (KB : 0 <= IZR (k1 - k0 + 10) <= 200000000) by (rewrite plus_IZR, minus_IZR in *; lra).
  apply (near_weaken _ H32 _ 16 _ 3) in W; [|lra..].
  destruct (cell_of res r Er Ur _ _ _ W) as [Fq Eq].
  { rewrite Rabs_mult, (Rabs_pos_eq r), (Rabs_pos_eq (IZR _)) by lra. apply Rmult_le_compat_r; [lra|]. change (bpow radix2 31) with 2147483648. lra. }
  rewrite div_mult in Eq by exact P. set (q := Bdiv mode_NE _ res) in *.
  rewrite tiny_val in Eq. pose proof (Rabs_le_inv _ _ Eq) as Eq'.
  assert (K10 : 10 <= IZR (k1 - k0 + 10)) by (rewrite plus_IZR, minus_IZR; lra).
  destruct (trunc_range lm q Fq ltac:(lra)) as (i & TI & I3 & I4).
  exists i. unfold cast_unsigned. rewrite TI.
  assert (k1 - k0 + 10 <= 200000000)%Z by (apply le_IZR; lra).
  assert (I1 : (k1 - k0 + 9 <= i)%Z) by (apply Z.lt_succ_r, lt_IZR; unfold Z.succ; rewrite plus_IZR in *; rewrite plus_IZR; lra).
  assert (I2 : (i <= k1 - k0 + 10)%Z) by (apply Z.lt_succ_r, lt_IZR; unfold Z.succ; rewrite (plus_IZR _ 1); lra).
  destruct (Z.leb_spec 0 i); [|lia]. destruct (Z.ltb_spec i (2 ^ 32)); [|lia]. split; [reflexivity|lia].
Qed.

Lemma axis_cell (x : b64) (v : R) : close (/ 4 * tiny * r) x v -> IZR k0 - 3 - tiny <= v / r <= IZR k1 + 3 + tiny ->
  let ox := Bminus mode_NE lo pad in
  exists i, cast_int32 (A := BA lm) (Bdiv mode_NE (Bminus mode_NE x ox) res) = Ok i /\ (0 <= i < k1 - k0 + 9)%Z /\ in_cell (B2R ox) r i v.
Proof.
  intros (Fx & Ex) B ox. pose proof P as P'. pose proof tiny_val as TV.
  pose proof axis_small as KS. pose proof axis_k0 as K0. pose proof axis_k1 as K1. rewrite minus_IZR in KS.
  set (t := v / r) in *. assert (Ev : v = t * r) by (unfold t; field; lra).
  assert (TB : -3400000000 <= t <= 3400000000) by (rewrite TV in B; lra).
  assert (NX : near (bpow radix2 32 * r) 2 1 x v).
  { split; [exact Fx|]. rewrite uH. split; [rewrite TV in Ex; lra|]. rewrite p32, Ev, Rabs_mult, (Rabs_pos_eq r), Rmult_1_l by lra.
    apply Rmult_le_compat_r; [lra|apply Rabs_le; lra]. }
  pose proof lo_near as NL. pose proof pad_near as NP. near_op near_sub (bpow radix2 32 * r) H32 NL NP NO. fold ox in NO.
  near_op near_sub (bpow radix2 32 * r) H32 NX NO D. destruct NO as (FO & EO & _). rewrite uH in EO.
  assert (EV : v - (IZR k0 * r - 5 * r) = (t - IZR k0 + 5) * r) by (rewrite Ev; ring). rewrite EV in D.
  apply (near_weaken _ H32 _ 16 _ 3) in D; [|lra..].
  destruct (cell_of res r Er Ur _ _ _ D) as [Fq Eq].
  { rewrite Rabs_mult, (Rabs_pos_eq r) by lra. apply Rmult_le_compat_r; [lra|]. change (bpow radix2 31) with 2147483648. rewrite TV in B. apply Rabs_le. lra. }
  rewrite div_mult in Eq by exact P. set (q := Bdiv mode_NE _ res) in *.
  rewrite TV in Eq, B. pose proof (Rabs_le_inv _ _ Eq) as Eq'.
  destruct (trunc_range lm q Fq ltac:(lra)) as (i & TI & I3 & I4).
  assert (I2 : (i < k1 - k0 + 9)%Z) by (apply lt_IZR; rewrite plus_IZR, minus_IZR; lra).
  assert (k1 - k0 + 9 <= 200000000)%Z by (apply le_IZR; rewrite plus_IZR, minus_IZR; lra).
  exists i. unfold cast_int32. rewrite TI.
  destruct (Z.leb_spec (- 2 ^ 31) i); [|lia]. destruct (Z.ltb_spec i (2 ^ 31)); [|lia]. split; [reflexivity|]. split; [lia|].
  unfold in_cell. apply Rabs_le_inv in EO. rewrite Ev. split.
  - assert ((IZR i - / 2048) * r <= (t - IZR k0 + 5) * r) by (apply Rmult_le_compat_r; lra). lra.
  - assert ((t - IZR k0 + 5) * r <= (IZR i + 1 + / 2048) * r) by (apply Rmult_le_compat_r; lra). lra.
Qed.

Lemma axis_tight (w : Z) : (k1 - k0 + 9 <= w <= k1 - k0 + 10)%Z -> tight r N V (B2R (Bminus mode_NE lo pad)) w.
Proof.
  intros (W1 & W2). apply IZR_le in W1, W2. rewrite plus_IZR, minus_IZR in W1, W2. pose proof P as P'. pose proof tiny_val as TV.
  pose proof lo_near as NL. pose proof pad_near as NP. near_op near_sub (bpow radix2 32 * r) H32 NL NP NO. destruct NO as (_ & EO & _). rewrite uH in EO. apply Rabs_le_inv in EO.
  pose proof (snapped_lowest V n k0 (proj1 HL)) as L. pose proof (snapped_lowest _ n _ (proj1 HU)) as U. rewrite lowest_neg, opp_IZR in U.
  destruct HL as ((_ & _ & L') & _). destruct HU as ((_ & _ & U') & _). rewrite lowest_neg, opp_IZR in U'. pose proof axis_nN as NN.
  replace (- highest V / r) with (- (highest V / r)) in * by (field; lra).
  assert (EL : lowest V = lowest V / r * r) by (field; lra). unfold tight.
  replace ((highest V - lowest V) / r) with (highest V / r - lowest V / r) by (field; lra).
  set (a := lowest V / r) in *. set (b := highest V / r) in *. rewrite EL. rewrite TV in *. split; [|lra].
  assert ((a - INR N - / 262144) * r <= IZR k0 * r <= (a + / 262144) * r) by (split; apply Rmult_le_compat_r; lra). lra.
Qed.

Lemma axis_in (v : R) : In v V -> IZR k0 - 3 - tiny <= v / r <= IZR k1 + 3 + tiny.
Proof.
  intros I. destruct HL as ((_ & L & _) & _). destruct HU as ((_ & U & _) & _). specialize (L v I).
  specialize (U (- v) (in_map Ropp V v I)). rewrite opp_IZR in U. replace (- v / r) with (- (v / r)) in U by (field; pose proof P; lra). lra.
Qed.
Lemma axis_near (v : R) : near_box r V v -> IZR k0 - 3 - tiny <= v / r <= IZR k1 + 3 + tiny.
Proof.
  intros (A & B). pose proof P as P'. pose proof (snapped_lowest V n k0 (proj1 HL)) as L. pose proof (snapped_lowest _ n _ (proj1 HU)) as U.
  rewrite lowest_neg, opp_IZR in U. replace (- highest V / r) with (- (highest V / r)) in U by (field; lra).
  apply (div_le r P) in A. apply (div_le r P) in B.
  replace ((lowest V - 3 * r) / r) with (lowest V / r - 3) in A by (field; lra).
  replace ((highest V + 3 * r) / r) with (highest V / r + 3) in B by (field; lra). lra.
Qed.
End Axis.

Lemma room_ge (N : nat) (V : list R) : 2 * INR N + 14 <= room r N V.
Proof.
  pose proof P as P'. unfold room. destruct (lowest_le V 0) as [L _]. destruct (highest_ge V 0) as [U _]. fold (lowest V) in L. fold (highest V) in U.
  assert (0 <= (highest V - lowest V) / r) by (apply Rmult_le_pos; [lra|left; apply Rinv_0_lt_compat; exact P]). lra.
Qed.

(** ** Rendering *)
Lemma render64 (scans : list (scan b64)) (n N : nat) (o : occ b64) (k0 k1 j0 j1 : Z) : bounds_ok scans n o k0 k1 j0 j1 -> (n <= N)%nat -> drawable r N scans ->
  exists m, render (A := BA lm) o scans = Ok m /\ length (om_data m) = Z.to_nat (om_width m * om_height m) /\
    (forall p, In p (obstacles scans) -> drawn r m p) /\ (forall s, In s scans -> drawn r m (sensor_of s)) /\
    tight r N (map px (obstacles scans)) (B2R (om_ox m)) (om_width m) /\ tight r N (map py (obstacles scans)) (B2R (om_oy m)) (om_height m).
Proof.
  intros (ER & EN & LX & UX & LY & UY) HN (HS & HB & HR). pose proof P as P'. fold (sized r scans) in HS.
  destruct (obstacles_moderate scans HS) as [MX MY].
  pose proof (room_ge N (map px (obstacles scans))) as RX. pose proof (room_ge N (map py (obstacles scans))) as RY. pose proof (pos_INR N) as N0.
  set (X := map px (obstacles scans)) in *. set (Y := map py (obstacles scans)) in *.
  assert (RX' : room r N X <= bpow radix2 31 / 14) by (change (bpow radix2 31) with 2147483648 in *; nra).
  assert (RY' : room r N Y <= bpow radix2 31 / 14) by (change (bpow radix2 31) with 2147483648 in *; nra).
  assert (N30 : INR N <= bpow radix2 30) by (change (bpow radix2 30) with 1073741824; change (bpow radix2 31) with 2147483648 in *; lra).
  pose proof (axis_count X n N _ _ k0 k1 LX UX HN) as CX. pose proof (axis_count Y n N _ _ j0 j1 LY UY HN) as CY.
  pose proof (axis_k0 X n N _ k0 LX MX HN N30) as KX0. pose proof (axis_k1 X n N _ k1 UX MX HN N30) as KX1.
  pose proof (axis_k0 Y n N _ j0 LY MY HN N30) as KY0. pose proof (axis_k1 Y n N _ j1 UY MY HN N30) as KY1.
  destruct (axis_dim X n N _ _ k0 k1 LX UX MX HN RX' N30) as (w & EW & HW).
  destruct (axis_dim Y n N _ _ j0 j1 LY UY MY HN RY' N30) as (h & EH & HHt).
  pose proof (axis_tight X n N _ _ k0 k1 LX UX MX HN N30 w HW) as TX. pose proof (axis_tight Y n N _ _ j0 j1 LY UY MY HN N30 h HHt) as TY.
  destruct HW as [W1 W2]. destruct HHt as [H1 H2].
  pose proof (axis_cell X n N _ _ k0 k1 LX UX MX HN RX' N30) as AX. pose proof (axis_cell Y n N _ _ j0 j1 LY UY MY HN RY' N30) as AY.
  pose proof (axis_in X n _ _ k0 k1 LX UX) as IX. pose proof (axis_in Y n _ _ j0 j1 LY UY) as IY.
  pose proof (axis_near X n _ _ k0 k1 LX UX) as BX. pose proof (axis_near Y n _ _ j0 j1 LY UY) as BY.
  cbv zeta in AX, AY.
  set (ox := Bminus mode_NE (og_minx o) (Bmult mode_NE (b64_of 5 0) res)) in *.
  set (oy := Bminus mode_NE (og_miny o) (Bmult mode_NE (b64_of 5 0) res)) in *.
  assert (K0 : (k0 <= 0 <= k1)%Z) by (split; apply le_IZR; lra). assert (J0 : (j0 <= 0 <= j1)%Z) by (split; apply le_IZR; lra).
  assert (SZ : (w * h < 2 ^ 31)%Z).
  { apply lt_IZR. rewrite mult_IZR. change (IZR (2 ^ 31)) with (bpow radix2 31).
    apply IZR_le in W2, H2. rewrite plus_IZR in W2, H2. assert (0 <= IZR w /\ 0 <= IZR h) by (split; apply IZR_le; lia). change (bpow radix2 31) with 2147483648 in *. nra. }
  assert (PC : forall x y p, close (/ 4 * tiny * r) x (px p) -> close (/ 4 * tiny * r) y (py p) ->
    IZR k0 - 3 - tiny <= px p / r <= IZR k1 + 3 + tiny -> IZR j0 - 3 - tiny <= py p / r <= IZR j1 + 3 + tiny ->
    exists c, pos_cell (A := BA lm) ox oy res x y = Ok c /\ in_grid w h c /\ in_cell (B2R ox) r (fst c) (px p) /\ in_cell (B2R oy) r (snd c) (py p)).
  { intros x y p CLX CLY BPX BPY. destruct (AX x (px p) CLX BPX) as (i & E1 & I1 & Q1). destruct (AY y (py p) CLY BPY) as (j & E2 & I2 & Q2).
    exists (i, j). unfold pos_cell. cbn [nsub ndiv BA]. rewrite E1. cbn [bind]. rewrite E2. cbn [bind fst snd].
    split; [reflexivity|]. split; [split; cbn [fst snd]; lia|]. split; assumption. }
  assert (T0 : 0 <= / 4 * tiny * r) by (rewrite tiny_val; lra).
  assert (SE : forall s, In s scans -> exists c, pos_cell (A := BA lm) ox oy res (pox (s_pose s)) (poy (s_pose s)) = Ok c /\ in_grid w h c /\
     in_cell (B2R ox) r (fst c) (px (sensor_of s)) /\ in_cell (B2R oy) r (snd c) (py (sensor_of s))).
  { intros s Hs. destruct (HB s Hs) as [B1 B2]. unfold sized in HS. rewrite Forall_forall in HS. destruct (HS s Hs) as (((F1 & _) & (F2 & _) & _) & _).
    apply PC.
    - split; [exact F1|]. cbn [px sensor_of sensor real_scan s_pose real_pose pox]. rewrite Rminus_diag_eq, Rabs_R0 by reflexivity. exact T0.
    - split; [exact F2|]. cbn [py sensor_of sensor real_scan s_pose real_pose poy]. rewrite Rminus_diag_eq, Rabs_R0 by reflexivity. exact T0.
    - apply BX. exact B1.
    - apply BY. exact B2. }
  assert (OB : forall s q, In s scans -> In q (s_pts s) -> let p := move (real_pose (s_pose s)) (real_point q) in
     In p (obstacles scans) /\
     exists c, pos_cell (A := BA lm) ox oy res
       (Bplus mode_NE (Bminus mode_NE (Bmult mode_NE (px q) (lm_cos lm (poth (s_pose s)))) (Bmult mode_NE (py q) (lm_sin lm (poth (s_pose s))))) (pox (s_pose s)))
       (Bplus mode_NE (Bplus mode_NE (Bmult mode_NE (px q) (lm_sin lm (poth (s_pose s)))) (Bmult mode_NE (py q) (lm_cos lm (poth (s_pose s))))) (poy (s_pose s))) = Ok c /\
     in_grid w h c /\ in_cell (B2R ox) r (fst c) (px p) /\ in_cell (B2R oy) r (snd c) (py p)).
  { intros s q Hs Hq p.
    assert (Ip : In p (obstacles scans)).
    { unfold obstacles, worlds. apply in_flat_map. exists (real_scan s). split; [apply in_map; exact Hs|]. unfold world. cbn [s_pts s_pose real_scan].
      unfold p. apply in_map, in_map. exact Hq. }
    split; [exact Ip|]. unfold sized in HS. rewrite Forall_forall in HS. destruct (HS s Hs) as (HP & HQ). rewrite Forall_forall in HQ.
    destruct (ray_end64 lm _ (s_pose s) q HT H29 HP (HQ q Hq)) as [LX' LY']. cbn [px py] in LX', LY'. rewrite p49 in LX', LY'.
    destruct (move_seen (s_pose s) q) as [MX' MY']. fold p in MX', MY'. rewrite <- MX' in LX'. rewrite <- MY' in LY'.
    apply PC; [exact LX'|exact LY'|apply IX; unfold X; apply in_map; exact Ip|apply IY; unfold Y; apply in_map; exact Ip]. }
  destruct (mapM_total (scan_rays (A := BA lm) ox oy res)
     (fun _ rays => Forall (fun ry => in_grid w h (fst ry) /\ in_grid w h (snd ry)) rays) scans) as (rays & M & F).
  { intros s Hs. unfold scan_rays. destruct (SE s Hs) as (st & E & G & _). rewrite E. cbn [bind].
    match goal with |- exists y, mapM ?f ?l = _ /\ _ =>
      destruct (mapM_total f (fun _ ry => in_grid w h (fst ry) /\ in_grid w h (snd ry)) l) as (rays & M & F) end.
    - intros q Hq. destruct (OB s q Hs Hq) as (_ & c & E2 & G2 & _). cbn [nadd nsub nmul ncos nsin BA]. rewrite E2. cbn [bind].
      eexists. split; [reflexivity|]. cbn [fst snd]. split; assumption.
    - exists rays. split; [exact M|]. clear -F. induction F; constructor; auto. }
  assert (F' : Forall (fun ry => in_grid w h (fst ry) /\ in_grid w h (snd ry)) (concat rays)).
  { clear -F. induction F; cbn [concat]; [constructor|]. apply Forall_app. auto. }
  assert (W10 : (9 <= w)%Z) by lia. assert (H10 : (9 <= h)%Z) by lia.
  assert (WR : wrap32 (w * h) = (w * h)%Z) by (unfold wrap32; apply Z.mod_small; nia).
  destruct (rays_safe w h (concat rays) (repeat 0%Z (Z.to_nat (w * h))) (repeat 0%Z (Z.to_nat (w * h))) ltac:(lia) ltac:(lia) SZ)
    as (ct & C); [apply repeat_length|apply repeat_length|exact F'|].
  unfold render. cbn [nadd nsub nmul ndiv nofZ BA]. rewrite ER, EW. cbn [bind]. rewrite EH. cbn [bind]. rewrite WR. fold ox oy.
  rewrite (proj2 (flatten_inv (scan_rays (A := BA lm) ox oy res) (render_ray w)
     scans (repeat 0%Z (Z.to_nat (w * h)), repeat 0%Z (Z.to_nat (w * h))) ct) (ex_intro _ rays (conj M C))).
  cbn [bind]. eexists. split; [reflexivity|]. cbn [om_width om_height om_ox om_oy om_data].
  split.
  - apply render_rays_inv in C. destruct C as (ms & _ & LA & LB & _). cbn [fst snd] in LA, LB.
    rewrite map_length, combine_length, LA, LB, !repeat_length. apply Nat.min_id.
  - split.
    + intros p Hp. unfold obstacles, worlds in Hp. apply in_flat_map in Hp. destruct Hp as (s' & Hs & Hp). apply in_map_iff in Hs. destruct Hs as (s & <- & Hs).
      unfold world in Hp. cbn [s_pts s_pose real_scan] in Hp. rewrite map_map in Hp. apply in_map_iff in Hp. destruct Hp as (q & <- & Hq).
      destruct (OB s q Hs Hq) as (_ & c & _ & (G1 & G2) & Q1 & Q2). exists (fst c), (snd c). repeat split; try assumption; try (apply G1); try (apply G2); apply Q1 || apply Q2.
    + split; [|split; assumption]. intros s Hs. destruct (SE s Hs) as (c & _ & (G1 & G2) & Q1 & Q2). exists (fst c), (snd c). split; [exact G1|]. split; [exact G2|]. split; assumption.
Qed.

Lemma run64 (calls : list (list (scan b64))) (l c : list (scan b64)) (n N : nat) (o : occ b64) (k0 k1 j0 j1 : Z) :
  growing l (calls ++ [c]) -> (forall d, In d (calls ++ [c]) -> drawable r N d) -> (n + length calls < N)%nat -> bounds_ok l n o k0 k1 j0 j1 ->
  exists o1 o2 m, occ_run (A := BA lm) o calls = Ok o1 /\ occ_get_msg (A := BA lm) o1 c = Ok (o2, m) /\
    length (om_data m) = Z.to_nat (om_width m * om_height m) /\
    (forall p, In p (obstacles c) -> drawn r m p) /\ (forall s, In s c -> drawn r m (sensor_of s)) /\
    tight r N (map px (obstacles c)) (B2R (om_ox m)) (om_width m) /\ tight r N (map py (obstacles c)) (B2R (om_oy m)) (om_height m).
Proof.
  revert l n o k0 k1 j0 j1. induction calls as [|d calls IH]; intros l n o k0 k1 j0 j1 G D L B; cbn [app growing] in G; destruct G as ((new & E) & G).
  - subst c. pose proof (D (l ++ new) (or_introl eq_refl)) as Dc. pose proof Dc as (DS & _ & DR). cbn [length] in L.
    pose proof (room_ge N (map px (obstacles (l ++ new)))) as RX. pose proof (room_ge N (map py (obstacles (l ++ new)))) as RY.
    assert (INR (S n) <= bpow radix2 30).
    { apply Rle_trans with (INR N); [apply le_INR; lia|]. pose proof (pos_INR N). change (bpow radix2 30) with 1073741824. change (bpow radix2 31) with 2147483648 in DR. nra. }
    destruct (refresh_bounds l new n o k0 k1 j0 j1 DS H B) as (a & b & e & f & B').
    destruct (render64 _ (S n) N _ a b e f B' ltac:(lia) Dc) as (m & M & R).
    exists o, (refresh (A := BA lm) o (l ++ new)), m. split; [reflexivity|]. split; [unfold occ_get_msg; rewrite M; reflexivity|exact R].
  - subst d. pose proof (D (l ++ new) (or_introl eq_refl)) as Dc. pose proof Dc as (DS & _ & DR). cbn [length] in L.
    pose proof (room_ge N (map px (obstacles (l ++ new)))) as RX. pose proof (room_ge N (map py (obstacles (l ++ new)))) as RY.
    assert (INR (S n) <= bpow radix2 30).
    { apply Rle_trans with (INR N); [apply le_INR; lia|]. pose proof (pos_INR N). change (bpow radix2 30) with 1073741824. change (bpow radix2 31) with 2147483648 in DR. nra. }
    destruct (refresh_bounds l new n o k0 k1 j0 j1 DS H B) as (a & b & e & f & B').
    destruct (render64 _ (S n) N _ a b e f B' ltac:(lia) Dc) as (m & M & R).
    destruct (IH (l ++ new) (S n) (refresh (A := BA lm) o (l ++ new)) a b e f G) as (o1 & o2 & m' & E1 & E2); [intros d' Hd; apply D; right; exact Hd|lia|exact B'|].
    exists o1, o2, m'. split; [|exact E2]. cbn [occ_run]. unfold occ_get_msg. rewrite M. exact E1.
Qed.
End Draw.

Lemma history64 (lm : libm) (res thresh : b64) (calls : list (list (scan b64))) (c : list (scan b64)) :
  accurate_trig lm -> is_finite res = true -> usual_cell (B2R res) -> growing [] (calls ++ [c]) ->
  (forall d, In d (calls ++ [c]) -> drawable (B2R res) (length (calls ++ [c])) d) ->
  exists o o' m, occ_run (A := BA lm) (occ_new (A := BA lm) res thresh) calls = Ok o /\ occ_get_msg (A := BA lm) o c = Ok (o', m) /\
    length (om_data m) = Z.to_nat (om_width m * om_height m) /\
    (forall p, In p (obstacles c) -> drawn (B2R res) m p) /\ (forall s, In s c -> drawn (B2R res) m (sensor_of s)) /\
    tight (B2R res) (length (calls ++ [c])) (map px (obstacles c)) (B2R (om_ox m)) (om_width m) /\
    tight (B2R res) (length (calls ++ [c])) (map py (obstacles c)) (B2R (om_oy m)) (om_height m).
Proof.
  intros HT F U G D. apply (run64 lm HT res (B2R res) F eq_refl U calls [] c 0 (length (calls ++ [c])) _ 0 0 0 0 G D).
  - rewrite app_length. cbn [length]. lia.
  - apply bounds_new. exact U.
Qed.

(** * C136: renders of a growing list of scans never fault; data and size agree;
    every point and every sensor lies in a cell of the grid. *)
Theorem C136_history (lm : libm) (res thresh : b64) (calls : list (list (scan b64))) (c : list (scan b64)) :
  accurate_trig lm -> is_finite res = true -> usual_cell (B2R res) -> growing [] (calls ++ [c]) ->
  (forall d, In d (calls ++ [c]) -> drawable (B2R res) (length (calls ++ [c])) d) ->
  exists o o' m, occ_run (A := BA lm) (occ_new (A := BA lm) res thresh) calls = Ok o /\ occ_get_msg (A := BA lm) o c = Ok (o', m) /\
    length (om_data m) = Z.to_nat (om_width m * om_height m) /\
    (forall p, In p (obstacles c) -> drawn (B2R res) m p) /\ (forall s, In s c -> drawn (B2R res) m (sensor_of s)).
Proof.
  intros HT F U G D. destruct (history64 lm res thresh calls c HT F U G D) as (o & o' & m & A1 & A2 & A3 & A4 & A5 & _).
  exists o, o', m. repeat (split; [assumption|]). assumption.
Qed.
Print Assumptions C136_history.

(** C42 in doubles: every render moves a bound by at most one cell too much. *)
Theorem C42_incremental_bounds_b64_partial (lm : libm) (res thresh : b64) (calls : list (list (scan b64))) (c : list (scan b64)) :
  accurate_trig lm -> is_finite res = true -> usual_cell (B2R res) -> growing [] (calls ++ [c]) ->
  (forall d, In d (calls ++ [c]) -> drawable (B2R res) (length (calls ++ [c])) d) ->
  exists o o' m, occ_run (A := BA lm) (occ_new (A := BA lm) res thresh) calls = Ok o /\ occ_get_msg (A := BA lm) o c = Ok (o', m) /\
    tight (B2R res) (length (calls ++ [c])) (map px (obstacles c)) (B2R (om_ox m)) (om_width m) /\
    tight (B2R res) (length (calls ++ [c])) (map py (obstacles c)) (B2R (om_oy m)) (om_height m).
Proof.
  intros HT F U G D. destruct (history64 lm res thresh calls c HT F U G D) as (o & o' & m & A1 & A2 & _ & _ & _ & A6).
  exists o, o', m. repeat (split; [assumption|]). assumption.
Qed.
Print Assumptions C42_incremental_bounds_b64_partial.

(** Two renders with cells of side one. *)
Lemma box_bounds (a b : R) (V : list R) : a <= 0 -> 0 <= b -> (forall v, In v V -> a <= v <= b) -> a <= lowest V /\ highest V <= b.
Proof.
  intros A B H. split.
  - destruct (lowest_in V) as [->|I]; [exact A|apply H; exact I].
  - destruct (lowest_in (map Ropp V)) as [E|I]; rewrite lowest_neg in *; [lra|].
    apply in_map_iff in I. destruct I as (v & E & I). specialize (H v I). lra.
Qed.

Lemma place_drawable (n : nat) (d : list (scan b64)) : (n <= 2)%nat -> d <> [] -> (forall s, In s d -> s = place_scan) -> drawable 1 n d.
Proof.
  intros N D All.
  assert (V : forall z, (Z.abs z <= 8)%Z -> B2R (b64_of z 0) = IZR z) by (intros z Hz; apply b64_ofZ; lia).
  set (ph := move (real_pose place_pose) (real_point place_point)).
  assert (OB : forall p, In p (obstacles d) <-> p = ph).
  { intros p. unfold obstacles, worlds. rewrite in_flat_map. split.
    - intros (s' & Hs & Hp). apply in_map_iff in Hs. destruct Hs as (s & <- & Hs). rewrite (All s Hs) in Hp. destruct Hp as [<-|[]]. reflexivity.
    - intros ->. destruct d as [|s d]; [contradiction|]. exists (real_scan s). split; [left; reflexivity|]. rewrite (All s (or_introl eq_refl)). left. reflexivity. }
  assert (PX : 1 <= px ph <= 5 /\ 2 <= py ph <= 6).
  { unfold ph, move, place_pose, place_point. cbn [px py pox poy poth real_pose real_point]. rewrite !V by lia.
    pose proof (COS_bound 1). pose proof (SIN_bound 1). lra. }
  assert (B : forall f : point R -> R, 0 <= f ph <= 6 ->
    0 <= lowest (map f (obstacles d)) <= 0 /\ f ph <= highest (map f (obstacles d)) <= 6).
  { intros f Hf. assert (I : In (f ph) (map f (obstacles d))) by (apply in_map; apply OB; reflexivity).
    destruct (box_bounds 0 6 (map f (obstacles d)) ltac:(lra) ltac:(lra)) as [L U].
    { intros v Hv. apply in_map_iff in Hv. destruct Hv as (p & <- & Hp). apply OB in Hp. rewrite Hp. exact Hf. }
    destruct (lowest_le (map f (obstacles d)) 0) as [L0 _]. destruct (highest_ge (map f (obstacles d)) 0) as [_ U0].
    specialize (U0 _ I). fold (lowest (map f (obstacles d))) in L0. fold (highest (map f (obstacles d))) in U0. lra. }
  destruct (B px ltac:(lra)) as [LX UX]. destruct (B py ltac:(lra)) as [LY UY].
  split; [|split].
  - apply Forall_forall. intros s Hs. rewrite (All s Hs). rewrite Rmult_1_r.
    assert (W : forall z, (Z.abs z <= 8)%Z -> upto (bpow radix2 29) (b64_of z 0)).
    { intros z Hz. destruct (b64_of_small z Hz) as [F G]. split; [exact F|]. eapply Rle_trans; [exact G|]. change (bpow radix2 29) with 536870912. lra. }
    split; [split; [apply W; lia|split; [apply W; lia|reflexivity]]|]. constructor; [|constructor]. split; apply W; lia.
  - intros s Hs. rewrite (All s Hs). unfold near_box, sensor_of, sensor, place_scan, real_scan, place_pose. cbn [px py s_pose real_pose pox poy]. rewrite !V by lia. lra.
  - unfold room. apply le_INR in N. change (INR 2) with (1 + 1) in N. pose proof (pos_INR n). change (bpow radix2 31) with 2147483648.
    set (a := (highest (map px (obstacles d)) - lowest (map px (obstacles d))) / 1). set (b := (highest (map py (obstacles d)) - lowest (map py (obstacles d))) / 1).
    assert (0 <= a <= 6) by (unfold a; lra). assert (0 <= b <= 6) by (unfold b; lra). nra.
Qed.

Example C136_nonvacuous (lm : libm) : let calls := [[place_scan]] in let c := [place_scan; place_scan] in
  accurate_trig (with_nearest lm) /\ is_finite (b64_of 1 0) = true /\ usual_cell (B2R (b64_of 1 0)) /\ growing [] (calls ++ [c]) /\
  (forall d, In d (calls ++ [c]) -> drawable (B2R (b64_of 1 0)) (length (calls ++ [c])) d) /\ obstacles c <> [].
Proof.
  intros calls c. destruct (b64_ofZ 1) as [V F]; [lia|]. rewrite V.
  split; [apply nearest_accurate|]. split; [exact F|]. split; [split; change 1 with (bpow radix2 0); apply bpow_le; lia|].
  split; [cbn; split; [exists [place_scan]; reflexivity|split; [exists [place_scan]; reflexivity|exact I]]|].
  split; [|discriminate]. intros d [<-|[<-|[]]]; (apply place_drawable; [cbn; lia|discriminate|]).
  - intros s [<-|[]]. reflexivity.
  - intros s [<-|[<-|[]]]; reflexivity.
Qed.
