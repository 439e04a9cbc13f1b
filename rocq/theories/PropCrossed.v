(** C168: the occupancy of a place depends only on the beams that cross it. *)

From Coq Require Import ZArith Reals List Bool Lia Lra Psatz.
From Flocq Require Import Core.
From Verif Require Import Outcome Arith TypesModel ScanModel OccGridModel SpecGrid SpecRay SpecOcc SpecCrossed RTactics
  NdtProofs MatcherProofs RayProofs OccProofs OccProofs2 OccWitness.
Import ListNotations.

(** The line algorithm does not depend on where the squares are counted from. *)
Definition shifted (d c : Z * Z) : Z * Z := ((fst c + fst d)%Z, (snd c + snd d)%Z).
Definition shifted_marks (d : Z * Z) (t : marks) : marks := (map (shifted d) (fst t), shifted d (snd t)).
Lemma ray_loop_shift : forall d fuel ex ey dx dy sx sy x y e,
  ray_loop fuel (ex + fst d) (ey + snd d) dx dy sx sy (x + fst d) (y + snd d) e =
  match ray_loop fuel ex ey dx dy sx sy x y e with Ok t => Ok (shifted_marks d t) | Fault f => Fault f end.
Proof.
  intros [a b]. cbn [fst snd]. induction fuel as [|fuel IH]; intros ex ey dx dy sx sy x y e; [reflexivity|]. cbn [ray_loop].
  assert (Q : forall u v w, ((u + w =? v + w) = (u =? v))%Z).
  { intros u v w. destruct (Z.eqb_spec u v) as [->|N]; [apply Z.eqb_refl|]. apply Z.eqb_neq. lia. }
  rewrite !Q. destruct ((x =? ex) && (y =? ey))%Z; [reflexivity|]. destruct ((dy <=? 2 * e) && (x =? ex))%Z; [reflexivity|].
  destruct (dy <=? 2 * e)%Z.
  - destruct ((2 * (e + dy) <=? dx) && (y =? ey))%Z; [reflexivity|].
    destruct (2 * (e + dy) <=? dx)%Z; replace (x + a + sx)%Z with (x + sx + a)%Z by ring; [replace (y + b + sy)%Z with (y + sy + b)%Z by ring|];
      rewrite IH; match goal with |- context [ray_loop ?f ?p ?q ?r ?s ?t ?u ?v ?w ?z] => destruct (ray_loop f p q r s t u v w z) as [[es h]|] end; reflexivity.
  - destruct ((2 * e <=? dx) && (y =? ey))%Z; [reflexivity|].
    destruct (2 * e <=? dx)%Z; [replace (y + b + sy)%Z with (y + sy + b)%Z by ring|];
      rewrite IH; match goal with |- context [ray_loop ?f ?p ?q ?r ?s ?t ?u ?v ?w ?z] => destruct (ray_loop f p q r s t u v w z) as [[es h]|] end; reflexivity.
Qed.
Lemma trace_ray_shift : forall d s e, trace_ray (shifted d s) (shifted d e) = match trace_ray s e with Ok t => Ok (shifted_marks d t) | Fault f => Fault f end.
Proof.
  intros [a b] [x0 y0] [ex ey]. unfold trace_ray, shifted at 1 2. cbn [fst snd].
  replace (ex + a - (x0 + a))%Z with (ex - x0)%Z by ring. replace (ey + b - (y0 + b))%Z with (ey - y0)%Z by ring.
  assert (Q : forall u v w, ((u + w <? v + w) = (u <? v))%Z).
  { intros u v w. destruct (Z.ltb_spec u v); [apply Z.ltb_lt; lia|apply Z.ltb_ge; lia]. }
  rewrite !Q. destruct (_ <? 2 ^ 31)%Z; [|reflexivity]. apply (ray_loop_shift (a, b)).
Qed.

Local Open Scope R_scope.

Lemma same_square_spec : forall c d, same_square c d = true <-> c = d.
Proof.
  intros [a b] [c d]. unfold same_square. cbn [fst snd]. rewrite andb_true_iff, !Z.eqb_eq. split; [intros [-> ->]; reflexivity|intro E; injection E; auto].
Qed.

(** The column of a position. *)
Lemma column : forall res z x, 0 < res -> IZR z * res - 5 * res <= x -> Ztrunc ((x - (IZR z * res - 5 * res)) / res) = (Zfloor (x / res) + (5 - z))%Z.
Proof.
  intros res z x Hr H. replace ((x - (IZR z * res - 5 * res)) / res) with (x / res + IZR (5 - z)) by (rewrite minus_IZR; field; lra).
  rewrite Ztrunc_floor.
  - apply Zfloor_imp. rewrite !plus_IZR. pose proof (Zfloor_lb (x / res)). pose proof (Zfloor_ub (x / res)). lra.
  - rewrite minus_IZR. replace x with (x / res * res) in H by (field; lra). nra.
Qed.

Lemma filter_map_eq : forall {X Y} (f : X -> Y) (p : Y -> bool) (q : X -> bool) l, (forall x, In x l -> p (f x) = q x) -> length (filter p (map f l)) = length (filter q l).
Proof.
  intros X Y f p q l. induction l as [|x l IH]; intro H; [reflexivity|]. cbn [map filter]. rewrite (H x (or_introl eq_refl)). pose proof (IH (fun y I => H y (or_intror I))) as E.
  destruct (q x); cbn [length]; rewrite E; reflexivity.
Qed.
Lemma Forall2_map_back : forall {X Y Z0} (P : X -> Y -> Prop) (Q : X -> Z0 -> Prop) (f : Z0 -> Y) l r, (forall x y, In x l -> P x y -> exists z, y = f z /\ Q x z) -> Forall2 P l r -> exists r', r = map f r' /\ Forall2 Q l r'.
Proof.
  intros X Y Z0 P Q f l r H F. induction F as [|x y l r Pxy F IH]; [exists []; split; [reflexivity|constructor]|].
  destruct (H x y (or_introl eq_refl) Pxy) as (z & -> & Qz). destruct IH as (r' & -> & F'); [intros u v I; apply H; right; exact I|].
  exists (z :: r'). split; [reflexivity|constructor; assumption].
Qed.
Lemma Forall2_compose : forall {X Y Z0} (P : X -> Y -> Prop) (Q : Y -> Z0 -> Prop) l r t, Forall2 P l r -> Forall2 Q r t -> Forall2 (fun x z => exists y, P x y /\ Q y z) l t.
Proof. intros X Y Z0 P Q l r t F. revert t. induction F as [|x y l r Pxy F IH]; intros t G; inversion G; subst; constructor; eauto. Qed.

(** Where the marks of a beam are. *)
Lemma marks_in : forall w h s e t, (5 <= w)%Z -> (5 <= h)%Z -> (w * h < 2 ^ 31)%Z -> in_grid w h s -> in_grid w h e -> trace_ray s e = Ok t ->
  (forall c, In c (fst t) -> in_grid w h c) /\ in_grid w h (snd t).
Proof.
  intros w h s e t Hw Hh L Gs Ge Tr. destruct (trace_ray_spec s e (grid_ray_fits w h s e Hw Hh L Gs Ge)) as (es & hh & E & F & I & _).
  rewrite E in Tr. injection Tr as <-. cbn [fst snd]. split; [|apply (in_rect_grid w h s e); assumption].
  intros c Ic. rewrite Forall_forall in F. apply (in_rect_grid w h s e); try assumption. apply F. exact Ic.
Qed.
Lemma at_grid : forall w h i j c, (w * h < 2 ^ 31)%Z -> (0 <= i < w)%Z -> (0 <= j < h)%Z -> in_grid w h c -> is_at w (Z.to_nat (i + j * w)) c = same_square (i, j) c.
Proof.
  intros w h i j [a b] L Hi Hj G. unfold is_at. change (flat w (a, b)) with (cell_index w (a, b)). destruct (cell_index_grid w h (a, b) G L) as [E _]. rewrite E. destruct G as [Ga Gb]. cbn [fst snd] in *.
  rewrite Z2Nat.id by nia. destruct (same_square (i, j) (a, b)) eqn:S.
  - apply same_square_spec in S. injection S as -> ->. apply Z.eqb_refl.
  - apply Z.eqb_neq. intro Q. assert (b = j) by nia. subst b. assert (a = i) by lia. subst a. rewrite (proj2 (same_square_spec _ _) eq_refl) in S. discriminate S.
Qed.

Section Drawn.
Context (res thresh : R) (Hr : 0 < res).

Theorem C168_world_values : forall scans m, drawn res thresh scans m -> exists ms, Forall2 (crossing res) (beams scans) ms /\
  forall c v, value_at res m c v -> verdict thresh (hits_at ms c) (hits_at ms c + frees_at ms c) v.
Proof.
  intros scans m (Fit & Hs & o & Ho & Hm). pose proof Hm as Hm0. unfold occ_get_msg in Hm0. apply bind_ok in Hm0. destruct Hm0 as (m1 & Rd & E). injection E as Eb ->.
  rewrite Eb in Rd. pose proof (proj1 (batch_fits res thresh scans Hr) Fit) as Fit'. destruct (batch_ordered res scans Hr) as (Ox & Oy).
  destruct (render_safe (batch res thresh scans) _ _ _ _ Hr eq_refl eq_refl eq_refl eq_refl Ox Oy Fit' scans Hs) as (m2 & M & W & H & OX & OY & RS & LD).
  { intros p Hp. apply batch_inside; [exact Hr|]. right. exact Hp. }
  rewrite Rd in M. injection M as <-.
  cbn [batch og_minx og_miny og_res] in OX, OY, RS.
  set (zx := Zfloor (lowest (map px (worlds scans)) / res)) in *. set (zy := Zfloor (lowest (map py (worlds scans)) / res)) in *.
  set (d := ((5 - zx)%Z, (5 - zy)%Z)).
  destruct (occ_values o (batch res thresh scans) scans m Hm) as (rays & gs & F1 & F2 & V).
  assert (Pos : forall p c, inside (batch res thresh scans) p -> cell_at m p c -> c = shifted d (square_of res p) /\ in_grid (om_width m) (om_height m) c).
  { intros p [c1 c2] Ip [C1 C2]. cbn [fst snd] in *. rewrite OX, RS in C1. rewrite OY, RS in C2. destruct Ip as [Ix Iy]. cbn [batch og_minx og_maxx og_miny og_maxy og_res] in Ix, Iy. fold zx in Ix. fold zy in Iy.
    split; [unfold shifted, square_of, d; cbn [fst snd]; rewrite C1, C2, !column by (try exact Hr; apply Ix || apply Iy); reflexivity|].
    pose proof (cell_range res zx _ (px p) Hr Ix) as Rx. pose proof (cell_range res zy _ (py p) Hr Iy) as Ry. rewrite <- C1 in Rx. rewrite <- C2 in Ry. rewrite W, H. split; assumption. }
  assert (Dim : (5 <= om_width m)%Z /\ (5 <= om_height m)%Z /\ (om_width m * om_height m < 2 ^ 31)%Z) by (rewrite W, H; repeat split; try lia; exact Fit').
  destruct Dim as (D1 & D2 & D3).
  assert (In2 : forall b, In b (beams scans) -> inside (batch res thresh scans) (fst b) /\ inside (batch res thresh scans) (snd b)).
  { intros b Ib. unfold beams in Ib. apply in_flat_map in Ib. destruct Ib as (s & Is & Ib). apply in_map_iff in Ib. destruct Ib as (q & <- & Iq). cbn [fst snd].
    split; [apply Hs; exact Is|]. apply batch_inside; [exact Hr|]. right. unfold worlds. apply in_flat_map. eauto. }
  pose proof (Forall2_compose _ _ _ _ _ F1 F2) as F.
  match type of F with Forall2 ?P _ _ => destruct (Forall2_map_back P (fun b t => crossing res b t /\ (forall c, In c (fst t) -> in_grid (om_width m) (om_height m) (shifted d c)) /\ in_grid (om_width m) (om_height m) (shifted d (snd t))) (shifted_marks d) (beams scans) gs) as (ms & Eg & F'); [|exact F|] end.
  { intros b t Ib ([r1 r2] & [C1 C2] & Tr). cbn [fst snd] in *. destruct (In2 b Ib) as [I1 I2]. destruct (Pos _ _ I1 C1) as [E1 G1]. destruct (Pos _ _ I2 C2) as [E2 G2].
    destruct (marks_in _ _ r1 r2 t D1 D2 D3 G1 G2 Tr) as [K1 K2]. subst r1 r2. rewrite trace_ray_shift in Tr. destruct (trace_ray (square_of res (fst b)) (square_of res (snd b))) as [u|] eqn:U; [|discriminate Tr].
    injection Tr as <-. exists u. split; [reflexivity|]. split; [exact U|]. cbn [shifted_marks fst snd] in K1, K2. split; [|exact K2]. intros c Ic. apply K1. apply in_map. exact Ic. }
  subst gs. exists ms. split; [clear -F'; induction F'; constructor; tauto|].
  intros c v (i & j & Hi & Hj & Ei & Ej & Nv).
  assert (Ec : (i, j) = shifted d c).
  { unfold shifted, d. cbn [fst snd]. rewrite OX in Ei. rewrite OY in Ej.
    assert (Q : forall z u k, IZR z * res - 5 * res + IZR u * res = IZR k * res -> u = (k + (5 - z))%Z).
    { intros z u k Q. apply eq_IZR. rewrite plus_IZR, minus_IZR. nra. }
    f_equal; [apply Q; exact Ei|apply Q; exact Ej]. }
  specialize (V _ v Nv). cbv zeta in V. rewrite Ho in V.
  assert (Sh : forall u, same_square (i, j) (shifted d u) = same_square c u).
  { intro u. rewrite Ec. unfold same_square, shifted. cbn [fst snd]. f_equal; [destruct (Z.eqb_spec (fst c) (fst u)) as [->|N]|destruct (Z.eqb_spec (snd c) (snd u)) as [->|N]];
      try apply Z.eqb_refl; apply Z.eqb_neq; lia. }
  assert (G : Forall (fun t : marks => (forall c, In c (fst t) -> in_grid (om_width m) (om_height m) (shifted d c)) /\ in_grid (om_width m) (om_height m) (shifted d (snd t))) ms).
  { clear -F'. induction F' as [|? ? ? ? (_ & K)]; constructor; assumption. }
  rewrite Forall_forall in G.
  assert (Eh : hits (om_width m) (map (shifted_marks d) ms) (Z.to_nat (i + j * om_width m)) = hits_at ms c).
  { unfold hits, hits_at. rewrite map_map. cbn [shifted_marks snd]. transitivity (length (filter (fun t : marks => same_square c (snd t)) ms)).
    - apply filter_map_eq. intros t It. rewrite (at_grid _ _ i j _ D3 Hi Hj (proj2 (G t It))). apply Sh.
    - symmetry. apply filter_map_eq. reflexivity. }
  assert (Ef : frees (om_width m) (map (shifted_marks d) ms) (Z.to_nat (i + j * om_width m)) = frees_at ms c).
  { unfold frees, frees_at.
    assert (Q : concat (map fst (map (shifted_marks d) ms)) = map (shifted d) (concat (map fst ms))).
    { generalize ms. intro l. induction l as [|t l IH]; [reflexivity|]. cbn [map concat shifted_marks fst]. rewrite map_app. f_equal. exact IH. }
    rewrite Q. apply filter_map_eq.
    intros u Iu. rewrite (at_grid _ _ i j (shifted d u) D3 Hi Hj); [apply Sh|]. apply in_concat in Iu. destruct Iu as (l & Il & Iu). apply in_map_iff in Il. destruct Il as (t & <- & It). exact (proj1 (G t It) u Iu). }
  rewrite <- Eh, <- Ef. exact V.
Qed.

Lemma crossing_det : forall bs ms ms', Forall2 (crossing res) bs ms -> Forall2 (crossing res) bs ms' -> ms = ms'.
Proof.
  intros bs ms ms' F. revert ms'. induction F as [|b t bs ms C F IH]; intros ms' G; inversion G as [|? t' ? ? C' G']; subst; [reflexivity|].
  unfold crossing in C, C'. rewrite C in C'. injection C' as <-. f_equal. apply IH. exact G'.
Qed.
Lemma verdict_det : forall h n h' n' v v', (n = 0 <-> n' = 0)%nat -> (INR h / INR n = INR h' / INR n') -> verdict thresh h n v -> verdict thresh h' n' v' -> v = v'.
Proof.
  intros h n h' n' v v' E Q (V1 & V2 & V3) (W1 & W2 & W3). rewrite Q in V3.
  destruct (Nat.eq_dec n 0) as [Z0|NZ].
  - rewrite (proj2 V2 Z0), (proj2 W2 (proj1 E Z0)). reflexivity.
  - assert (NZ' : n' <> 0%nat) by (intro X; apply NZ, E, X). assert (v <> (-1)%Z) by (intro X; apply NZ, V2, X). assert (v' <> (-1)%Z) by (intro X; apply NZ', W2, X).
    assert (I : v = 100%Z <-> v' = 100%Z). { rewrite V3, W3. split; intros [_ X]; (split; [lia|exact X]). }
    destruct V1 as [V1|[V1|V1]], W1 as [W1|[W1|W1]]; try contradiction; subst; try reflexivity; [pose proof (proj2 I eq_refl)|pose proof (proj1 I eq_refl)]; congruence.
Qed.
Lemma hits_app : forall a b c, hits_at (a ++ b) c = (hits_at a c + hits_at b c)%nat.
Proof. intros. unfold hits_at. rewrite map_app, filter_app, app_length. reflexivity. Qed.
Lemma frees_app : forall a b c, frees_at (a ++ b) c = (frees_at a c + frees_at b c)%nat.
Proof. intros. unfold frees_at. rewrite map_app, concat_app, filter_app, app_length. reflexivity. Qed.
Lemma beams_app : forall a b, beams (a ++ b) = beams a ++ beams b.
Proof. intros. apply flat_map_app. Qed.
Lemma none_marked : forall bs ms c, Forall2 (crossing res) bs ms -> (forall b, In b bs -> misses res c b) -> hits_at ms c = 0%nat /\ frees_at ms c = 0%nat.
Proof.
  intros bs ms c F H. induction F as [|b t bs ms C F IH]; [split; reflexivity|]. destruct IH as [I1 I2]; [intros b0 I0; apply H; right; exact I0|].
  destruct (H b (or_introl eq_refl) t C) as [N1 N2]. change (t :: ms) with ([t] ++ ms). rewrite hits_app, frees_app, I1, I2, !Nat.add_0_r. unfold hits_at, frees_at. cbn [map concat]. rewrite app_nil_r. split.
  - cbn [filter]. destruct (same_square c (snd t)) eqn:S; [|reflexivity]. apply same_square_spec in S. congruence.
  - assert (G : filter (same_square c) (fst t) = []); [|rewrite G; reflexivity]. clear -N1. induction (fst t) as [|x l IH]; [reflexivity|]. cbn [filter]. destruct (same_square c x) eqn:S.
    + apply same_square_spec in S. subst x. destruct N1. left. reflexivity.
    + apply IH. intro I. apply N1. right. exact I.
Qed.

(** The published grid covers the box of the points and five squares around it. *)
Definition boxed (scans : list (scan R)) (c : Z * Z) : Prop :=
  (Zfloor (lowest (map px (worlds scans)) / res) - 5 <= fst c < Zceil (highest (map px (worlds scans)) / res) + 5)%Z /\
  (Zfloor (lowest (map py (worlds scans)) / res) - 5 <= snd c < Zceil (highest (map py (worlds scans)) / res) + 5)%Z.
Lemma covered_squares : forall scans m c, drawn res thresh scans m -> (boxed scans c <-> exists v, value_at res m c v).
Proof.
  intros scans m c (Fit & Hs & o & Ho & Hm). unfold occ_get_msg in Hm. apply bind_ok in Hm. destruct Hm as (m1 & Rd & E). injection E as Eb ->.
  rewrite Eb in Rd. pose proof (proj1 (batch_fits res thresh scans Hr) Fit) as Fit'. destruct (batch_ordered res scans Hr) as (Ox & Oy).
  destruct (render_safe (batch res thresh scans) _ _ _ _ Hr eq_refl eq_refl eq_refl eq_refl Ox Oy Fit' scans Hs) as (m2 & M & W & H & OX & OY & RS & LD).
  { intros p Hp. apply batch_inside; [exact Hr|]. right. exact Hp. }
  rewrite Rd in M. injection M as <-. cbn [batch og_minx og_miny og_res] in OX, OY, RS. unfold boxed, value_at.
  set (zx := Zfloor (lowest (map px (worlds scans)) / res)) in *. set (zy := Zfloor (lowest (map py (worlds scans)) / res)) in *.
  set (ux := Zceil (highest (map px (worlds scans)) / res)) in *. set (uy := Zceil (highest (map py (worlds scans)) / res)) in *.
  assert (Q : forall z u k, IZR z * res - 5 * res + IZR u * res = IZR k * res <-> u = (k + (5 - z))%Z).
  { intros z u k. split; intro Q; [apply eq_IZR; rewrite plus_IZR, minus_IZR; nra|]. rewrite Q, plus_IZR, minus_IZR. ring. }
  rewrite OX, OY, W, H. split.
  - intros [Bx By]. exists (nth (Z.to_nat ((fst c + (5 - zx)) + (snd c + (5 - zy)) * (ux - zx + 10))) (om_data m) 0%Z), (fst c + (5 - zx))%Z, (snd c + (5 - zy))%Z.
    split; [lia|]. split; [lia|]. rewrite !Q. split; [reflexivity|]. split; [reflexivity|]. apply nth_error_nth'. rewrite LD. nia.
  - intros (v & i & j & Hi & Hj & Ei & Ej & _). apply Q in Ei, Ej. lia.
Qed.
Lemma drawn_ox : forall scans m, drawn res thresh scans m -> om_ox m = IZR (Zfloor (lowest (map px (worlds scans)) / res)) * res - 5 * res.
Proof.
  intros scans m (Fit & Hs & o & Ho & Hm). unfold occ_get_msg in Hm. apply bind_ok in Hm. destruct Hm as (m1 & Rd & E). injection E as Eb ->.
  rewrite Eb in Rd. pose proof (proj1 (batch_fits res thresh scans Hr) Fit) as Fit'. destruct (batch_ordered res scans Hr) as (Ox & Oy).
  destruct (render_safe (batch res thresh scans) _ _ _ _ Hr eq_refl eq_refl eq_refl eq_refl Ox Oy Fit' scans Hs) as (m2 & M & W & H & OX & OY & RS & LD).
  { intros p Hp. apply batch_inside; [exact Hr|]. right. exact Hp. }
  rewrite Rd in M. injection M as <-. exact OX.
Qed.
Lemma boxed_grows : forall a b c, boxed a c -> boxed (a ++ b) c.
Proof.
  intros a b c. unfold boxed, worlds. rewrite flat_map_app, !map_app. unfold lowest, highest. rewrite !fold_left_app.
  assert (L : forall xs u, (Zfloor (fold_left Rmin xs u / res) <= Zfloor (u / res))%Z).
  { intros xs u. apply Zfloor_le. apply Rmult_le_compat_r; [left; apply Rinv_0_lt_compat; exact Hr|apply (proj1 (lowest_le xs u))]. }
  assert (U : forall xs u, (Zceil (u / res) <= Zceil (fold_left Rmax xs u / res))%Z).
  { intros xs u. apply Zceil_le. apply Rmult_le_compat_r; [left; apply Rinv_0_lt_compat; exact Hr|apply (proj1 (highest_ge xs u))]. }
  intros [[B1 B2] [B3 B4]]. split; (split; [eapply Z.le_trans; [apply Z.sub_le_mono_r, L|assumption]|eapply Z.lt_le_trans; [eassumption|apply Z.add_le_mono_r, U]]).
Qed.
Lemma still_covered : forall scans added m m' c v, drawn res thresh scans m -> drawn res thresh (scans ++ added) m' -> value_at res m c v -> exists v', value_at res m' c v'.
Proof.
  intros scans added m m' c v D D' V. apply (covered_squares _ m' c D'). apply boxed_grows. apply (covered_squares _ m c D). exists v. exact V.
Qed.

(** Beams that do not cross a place do not change its value, however many, wherever the
    grid now begins. *)
Theorem C168_elsewhere : forall scans added m m' c v, drawn res thresh scans m -> drawn res thresh (scans ++ added) m' ->
  (forall b, In b (beams added) -> misses res c b) -> value_at res m c v -> value_at res m' c v.
Proof.
  intros scans added m m' c v D D' M V. destruct (still_covered scans added m m' c v D D' V) as (v' & V').
  destruct (C168_world_values scans m D) as (ms & F & W). destruct (C168_world_values _ m' D') as (ms' & F' & W').
  rewrite beams_app in F'. apply Forall2_app_inv_l in F'. destruct F' as (m1 & m2 & F1 & F2 & ->). rewrite <- (crossing_det _ _ _ F F1) in *.
  destruct (none_marked _ _ c F2 M) as [Z1 Z2]. specialize (W c v V). specialize (W' c v' V'). rewrite hits_app, frees_app, Z1, Z2, !Nat.add_0_r in W'.
  rewrite (verdict_det _ _ _ _ v v' (iff_refl _) eq_refl W W'). exact V'.
Qed.

(** Seeing the same again, any number of times, changes nothing. *)
Theorem C168_again : forall scans k m m' c v, drawn res thresh scans m -> drawn res thresh (concat (repeat scans (S k))) m' ->
  value_at res m c v -> value_at res m' c v.
Proof.
  intros scans k m m' c v D D' V. destruct (still_covered scans (concat (repeat scans k)) m m' c v D D' V) as (v' & V').
  destruct (C168_world_values scans m D) as (ms & F & W). destruct (C168_world_values _ m' D') as (ms' & F' & W').
  assert (E : forall n x, Forall2 (crossing res) (beams (concat (repeat scans n))) x -> hits_at x c = (n * hits_at ms c)%nat /\ frees_at x c = (n * frees_at ms c)%nat).
  { induction n as [|n IH]; intros x Fx; cbn [repeat concat] in Fx; [inversion Fx; split; reflexivity|].
    rewrite beams_app in Fx. apply Forall2_app_inv_l in Fx. destruct Fx as (m1 & m2 & F1 & F2 & ->). rewrite <- (crossing_det _ _ _ F F1). rewrite hits_app, frees_app. destruct (IH _ F2) as [-> ->]. cbn [Nat.mul]. split; reflexivity. }
  destruct (E _ _ F') as [E1 E2]. specialize (W c v V). specialize (W' c v' V'). rewrite E1, E2, <- Nat.mul_add_distr_l in W'.
  assert (Ev : v = v'); [|rewrite Ev; exact V']. refine (verdict_det _ _ _ _ v v' _ _ W W'); [nia|].
  destruct (Nat.eq_dec (hits_at ms c + frees_at ms c) 0) as [Z0|NZ].
  - rewrite Z0, Nat.mul_0_r. replace (hits_at ms c) with 0%nat by lia. rewrite Nat.mul_0_r. reflexivity.
  - rewrite !mult_INR. assert (INR (S k) <> 0) by (apply not_0_INR; lia). assert (INR (hits_at ms c + frees_at ms c) <> 0) by (apply not_0_INR; exact NZ). field. auto.
Qed.
End Drawn.

(** A beam to the right, then one to the left: the grid grows to the left, the square the
    first beam crossed stays what it was. *)
Lemma two_worlds : forall x y, worlds [ray_scan 0 x; ray_scan 0 y] = [mkPoint x 0; mkPoint y 0].
Proof. intros. unfold worlds. cbn [flat_map]. rewrite !ray_scan_world. cbn [app]. rewrite !Rplus_0_r. reflexivity. Qed.
Lemma one_world : forall x, worlds [ray_scan 0 x] = [mkPoint x 0].
Proof. intros. unfold worlds. cbn [flat_map]. rewrite !ray_scan_world. cbn [app]. rewrite !Rplus_0_r. reflexivity. Qed.
Lemma at_origin : forall scans, (forall s, In s scans -> sensor s = mkPoint 0 0) -> forall s, In s scans -> inside (batch 1 (1 / 2) scans) (sensor s).
Proof. intros scans H s I. rewrite (H s I). apply batch_inside; [lra|left; reflexivity]. Qed.
Lemma drawn_fresh : forall scans, grid_fits (batch 1 (1 / 2) scans) -> (forall s, In s scans -> sensor s = mkPoint 0 0) -> exists m, drawn 1 (1 / 2) scans m.
Proof.
  intros scans Fit H. destruct (first_render_safe 1 (1 / 2) scans Rlt_0_1 Fit (at_origin scans H)) as (m & E & _). exists m. split; [exact Fit|]. split; [exact (at_origin scans H)|].
  exists (occ_new 1 (1 / 2)). split; [reflexivity|exact E].
Qed.
Lemma low_high : forall a b, 0 <= a -> b <= 0 -> lowest [a; b] = b /\ highest [a; b] = a.
Proof. intros a b Ha Hb. unfold lowest, highest. cbn [fold_left]. rewrite (Rmin_left 0 a), (Rmax_right 0 a), Rmin_right, Rmax_left by lra. split; reflexivity. Qed.
Lemma low_high_1 : forall a, 0 <= a -> lowest [a] = 0 /\ highest [a] = a.
Proof. intros a Ha. unfold lowest, highest. cbn [fold_left]. rewrite Rmin_left, Rmax_right by lra. split; reflexivity. Qed.
Lemma over_1 : forall z, Zfloor (IZR z / 1) = z /\ Zceil (IZR z / 1) = z.
Proof. intro z. replace (IZR z / 1) with (IZR z) by field. split; [apply Zfloor_IZR|apply Zceil_IZR]. Qed.
Example C168_nonvacuous : exists m m', drawn 1 (1 / 2) [ray_scan 0 3] m /\ drawn 1 (1 / 2) ([ray_scan 0 3] ++ [ray_scan 0 (-2)]) m' /\
  om_ox m' <> om_ox m /\ (forall b, In b (beams [ray_scan 0 (-2)]) -> misses 1 (1, 0)%Z b) /\ exists v, value_at 1 m (1, 0)%Z v.
Proof.
  destruct (low_high 3 (-2) ltac:(lra) ltac:(lra)) as [L2 H2]. destruct (low_high_1 3 ltac:(lra)) as [L1 H1]. destruct (low_high 0 0 ltac:(lra) ltac:(lra)) as [L0 H0]. destruct (low_high_1 0 ltac:(lra)) as [L00 H00].
  destruct (drawn_fresh [ray_scan 0 3]) as (m & D).
  { apply batch_fits; [lra|]. rewrite one_world. cbn [map px py]. rewrite L1, H1, L00, H00. rewrite (proj1 (over_1 0)), (proj2 (over_1 0)), (proj2 (over_1 3)). reflexivity. }
  { intros s [<-|[]]. reflexivity. }
  destruct (drawn_fresh ([ray_scan 0 3] ++ [ray_scan 0 (-2)])) as (m' & D').
  { apply batch_fits; [lra|]. cbn [app]. rewrite two_worlds. cbn [map px py]. rewrite L2, H2, L0, H0. rewrite (proj1 (over_1 0)), (proj2 (over_1 0)), (proj2 (over_1 3)), (proj1 (over_1 (-2))). reflexivity. }
  { intros s [<-|[<-|[]]]; reflexivity. }
  exists m, m'. split; [exact D|]. split; [exact D'|].
  split. { rewrite (drawn_ox 1 (1 / 2) Rlt_0_1 _ m D), (drawn_ox 1 (1 / 2) Rlt_0_1 _ m' D'). cbn [app]. rewrite two_worlds, one_world. cbn [map px]. rewrite L2, L1.
    rewrite (proj1 (over_1 0)), (proj1 (over_1 (-2))). lra. }
  split. { intros b Ib t C. unfold beams in Ib. cbn [flat_map] in Ib. rewrite ray_scan_world in Ib. cbn [map app In] in Ib. destruct Ib as [<-|[]]. unfold crossing, square_of, sensor, ray_scan in C. cbn [fst snd px py s_pose pox poy] in C.
    rewrite Rplus_0_r in C. rewrite (proj1 (over_1 0)), (proj1 (over_1 (-2))) in C. vm_compute in C. injection C as <-. cbn [fst snd In]. split; [intros [Q|[Q|[]]]; discriminate Q|discriminate]. }
  apply (covered_squares 1 (1 / 2) Rlt_0_1 _ m _ D). unfold boxed. rewrite one_world. cbn [map px py fst snd]. rewrite L1, H1, L00, H00. rewrite (proj1 (over_1 0)), (proj2 (over_1 0)), (proj2 (over_1 3)). lia.
Qed.
