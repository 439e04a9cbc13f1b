(** Proofs about the occupancy grid. *)

From Coq Require Import ZArith Reals List Bool Lia Lra Psatz.
From Flocq Require Import Core.
From Verif Require Import Outcome Arith TypesModel ScanModel NdtModel OccGridModel SpecGrid SpecRay SpecOcc RTactics
  NdtProofs MatcherProofs MatcherB64 SolverProofs RayProofs.
Import ListNotations.

(** * Counters *)
Section Count.
Context {X : Type} (f : X -> Z).
Let bump (v : list Z) (c : X) : outcome (list Z) := vec_update v (f c) (fun n => (n + 1)%Z).

Lemma bump_inv : forall v c v', bump v c = Ok v' ->
  length v' = length v /\
  forall k, nth k v' 0%Z = (nth k v 0 + if (f c =? Z.of_nat k)%Z then 1 else 0)%Z.
Proof.
  intros v c v' H. unfold bump, vec_update in H. apply bind_ok in H. destruct H as (x & H1 & H2).
  injection H2 as <-. apply vec_get_inv in H1. destruct H1 as (B & E).
  split; [apply length_list_set|]. intro k.
  rewrite <- !nth_default_eq. unfold nth_default. rewrite nth_error_list_set.
  destruct (Z.eqb_spec (f c) (Z.of_nat k)) as [Ek|Nk].
  - assert (K : Z.to_nat (f c) = k) by lia. rewrite K in *. rewrite Nat.eqb_refl.
    destruct (Nat.ltb_spec k (length v)); [|lia]. cbn [andb]. rewrite E. reflexivity.
  - destruct (Nat.eqb_spec (Z.to_nat (f c)) k); [lia|]. cbn [andb].
    destruct (nth_error v k); lia.
Qed.

Lemma bump_fold_inv : forall xs v v', foldM bump v xs = Ok v' ->
  length v' = length v /\
  forall k, nth k v' 0%Z = (nth k v 0 + Z.of_nat (length (filter (fun c => (f c =? Z.of_nat k)%Z) xs)))%Z.
Proof.
  induction xs as [|x xs IH]; intros v v' H; cbn [foldM] in H.
  - injection H as <-. split; [reflexivity|]. intro k. cbn. lia.
  - apply bind_ok in H. destruct H as (v1 & H1 & H2). apply bump_inv in H1. destruct H1 as (L1 & N1).
    destruct (IH _ _ H2) as (L2 & N2). split; [congruence|]. intro k. rewrite N2, N1. cbn [filter].
    destruct (f x =? Z.of_nat k)%Z; cbn [length]; lia.
Qed.

Lemma bump_fold_total : forall xs v, (forall c, In c xs -> (0 <= f c < Z.of_nat (length v))%Z) ->
  exists v', foldM bump v xs = Ok v'.
Proof.
  induction xs as [|x xs IH]; intros v H; cbn [foldM]; [eauto|].
  destruct (vec_get_ok v (f x)) as (y & Y & _); [apply H; left; reflexivity|].
  unfold bump at 1, vec_update. rewrite Y. cbn [bind]. apply IH.
  intros c Hc. rewrite length_list_set. apply H. right. exact Hc.
Qed.
End Count.

(** * Rendering, in every arithmetic *)
Section Render.
Context {T : Type} {A : Arith T}.

Lemma render_rays_inv : forall w rays ct ct', foldM (render_ray w) ct rays = Ok ct' ->
  exists ms, mapM (fun r => trace_ray (fst r) (snd r)) rays = Ok ms /\
    length (fst ct') = length (fst ct) /\ length (snd ct') = length (snd ct) /\
    forall k, nth k (fst ct') 0%Z = (nth k (fst ct) 0 + Z.of_nat (hits w ms k))%Z /\
              nth k (snd ct') 0%Z = (nth k (snd ct) 0 + Z.of_nat (frees w ms k))%Z.
Proof.
  intros w. induction rays as [|r rays IH]; intros ct ct' H; cbn [foldM mapM] in *.
  - injection H as <-. exists []. split; [reflexivity|]. repeat split; cbn; lia.
  - apply bind_ok in H. destruct H as (ct1 & H1 & H2).
    unfold render_ray in H1. apply bind_ok in H1. destruct H1 as ((es, h) & TR & H1). rewrite TR. cbn [bind].
    apply bind_ok in H1. destruct H1 as (em & E1 & H1). apply bind_ok in H1. destruct H1 as (hi & E2 & H1).
    injection H1 as <-.
    apply (bump_fold_inv (cell_index w)) in E1. destruct E1 as (L1 & N1).
    apply (bump_inv (cell_index w)) in E2. destruct E2 as (L2 & N2).
    destruct (IH _ _ H2) as (ms & M & L3 & L4 & N3). rewrite M. cbn [bind].
    exists ((es, h) :: ms). split; [reflexivity|]. cbn [fst snd] in L3, L4, N3.
    split; [congruence|]. split; [congruence|]. intro k. specialize (N3 k). destruct N3 as (N3 & N4).
    rewrite N3, N4, N1, N2. unfold hits, frees. cbn [map filter concat fst snd].
    rewrite filter_app, app_length.
    change (is_at w k) with (fun c => (cell_index w c =? Z.of_nat k)%Z). cbv beta.
    split; [|rewrite Nat2Z.inj_add, Z.add_assoc; reflexivity].
    destruct (cell_index w h =? Z.of_nat k)%Z; cbn [length]; lia.
Qed.

Lemma render_rays_total : forall w rays ct,
  (forall r, In r rays -> exists es h, trace_ray (fst r) (snd r) = Ok (es, h) /\
     (forall c, In c es -> (0 <= cell_index w c < Z.of_nat (length (snd ct)))%Z) /\
     (0 <= cell_index w h < Z.of_nat (length (fst ct)))%Z) ->
  exists ct', foldM (render_ray w) ct rays = Ok ct'.
Proof.
  intros w. induction rays as [|r rays IH]; intros ct H; cbn [foldM]; [eauto|].
  destruct (H r (or_introl eq_refl)) as (es & h & TR & HE & HH).
  unfold render_ray at 1. rewrite TR. cbn [bind].
  destruct (bump_fold_total (cell_index w) es (snd ct) HE) as (em & EM). rewrite EM. cbn [bind].
  unfold vec_update at 1. destruct (vec_get_ok _ _ HH) as (y & Y & _). rewrite Y. cbn [bind]. apply IH.
  intros r' Hr'. destruct (H r' (or_intror Hr')) as (es' & h' & TR' & HE' & HH').
  exists es', h'. cbn [fst snd]. rewrite length_list_set. destruct (bump_fold_inv _ _ _ _ EM) as (L & _). rewrite L. auto.
Qed.

Lemma flatten_inv : forall {S X Y} (g : X -> outcome (list Y)) (f : S -> Y -> outcome S) xs s s',
  foldM (fun s x => bind (g x) (fun ys => foldM f s ys)) s xs = Ok s' <->
  exists yss, mapM g xs = Ok yss /\ foldM f s (concat yss) = Ok s'.
Proof.
  intros S X Y g f. induction xs as [|x xs IH]; intros s s'; cbn [foldM mapM].
  - split; [intro H; exists []; split; [reflexivity|exact H]|]. intros (yss & E & H). injection E as <-. exact H.
  - destruct (g x) as [ys|?]; cbn [bind]; [|split; [discriminate|intros (? & ? & _); discriminate]].
    split.
    + intro H. apply bind_ok in H. destruct H as (s1 & H1 & H2). apply IH in H2. destruct H2 as (yss & M & F).
      rewrite M. cbn [bind]. exists (ys :: yss). split; [reflexivity|]. cbn [concat]. rewrite foldM_app, H1. exact F.
    + intros (yss & M & F). destruct (mapM g xs) as [ysr|?]; cbn [bind] in M; [|discriminate].
      injection M as <-. cbn [concat] in F. rewrite foldM_app in F. apply bind_ok in F. destruct F as (s1 & F1 & F2).
      rewrite F1. cbn [bind]. apply IH. exists ysr. auto.
Qed.

Lemma nth_cell_values : forall (thresh : T) (h e : list Z) k,
  length h = length e -> (k < length h)%nat ->
  nth_error (map (fun he => cell_value thresh (fst he) (snd he)) (combine h e)) k =
  Some (cell_value thresh (nth k h 0%Z) (nth k e 0%Z)).
Proof.
  intros thresh h. induction h as [|x h IH]; intros [|y e] [|k] L B; cbn in *; try lia; [reflexivity|].
  apply IH; lia.
Qed.

(** Every cell of a rendering is the value for the number of marks. *)
Theorem render_counts : forall (o : occ T) scans m,
  render o scans = Ok m ->
  exists rays ms,
    mapM (scan_rays (om_ox m) (om_oy m) (og_res o)) scans = Ok rays /\
    mapM (fun r => trace_ray (fst r) (snd r)) (concat rays) = Ok ms /\
    om_resolution m = nsingle (og_res o) /\
    (0 <= om_width m < 2 ^ 32)%Z /\ (0 <= om_height m < 2 ^ 32)%Z /\
    length (om_data m) = Z.to_nat (wrap32 (om_width m * om_height m)) /\
    forall k, (k < length (om_data m))%nat ->
      nth_error (om_data m) k =
        Some (cell_value (og_thresh o) (Z.of_nat (hits (om_width m) ms k)) (Z.of_nat (frees (om_width m) ms k))).
Proof.
  intros o scans m H. unfold render in H. apply bind_ok in H. destruct H as (w & Hw & H).
  apply bind_ok in H. destruct H as (h & Hh & H). apply bind_ok in H. destruct H as ((ht, em) & F & H).
  injection H as <-. cbn [om_ox om_oy om_width om_height om_data om_resolution].
  apply flatten_inv in F. destruct F as (rays & M & F). exists rays.
  apply render_rays_inv in F. destruct F as (ms & M2 & L1 & L2 & N). exists ms.
  split; [exact M|]. split; [exact M2|]. split; [reflexivity|]. cbn [fst snd] in *. rewrite repeat_length in *.
  apply cast_unsigned_inv in Hw. apply cast_unsigned_inv in Hh.
  split; [apply Hw|]. split; [apply Hh|].
  assert (LD : length (map (fun he => cell_value (og_thresh o) (fst he) (snd he)) (combine ht em)) =
    Z.to_nat (wrap32 (w * h))).
  { rewrite map_length, combine_length, L1, L2. apply Nat.min_id. }
  split; [exact LD|]. intros k Hk. rewrite LD in Hk.
  rewrite nth_cell_values by congruence. destruct (N k) as (N1 & N2).
  rewrite N1, N2. rewrite nth_repeat. reflexivity.
Qed.

End Render.

(** * Exact arithmetic *)
Local Open Scope R_scope.

Lemma mapM_Forall2 : forall {X Y} (f : X -> outcome Y) l ys, mapM f l = Ok ys -> Forall2 (fun x y => f x = Ok y) l ys.
Proof.
  intros X Y f. induction l as [|x l IH]; intros ys H; cbn [mapM] in H.
  - injection H as <-. constructor.
  - apply bind_ok in H. destruct H as (y & H1 & H). apply bind_ok in H. destruct H as (ys' & H2 & H).
    injection H as <-. constructor; auto.
Qed.

Lemma Forall2_concat : forall {X Y} (P : X -> Y -> Prop) ls rs,
  Forall2 (Forall2 P) ls rs -> Forall2 P (concat ls) (concat rs).
Proof. intros X Y P ls rs H. induction H; cbn; [constructor|]. apply Forall2_app; assumption. Qed.

Lemma Forall2_map_l : forall {X Y Z0} (P : Y -> Z0 -> Prop) (f : X -> Y) l r,
  Forall2 (fun x z => P (f x) z) l r -> Forall2 P (map f l) r.
Proof. intros X Y Z0 P f l r H. induction H; cbn; constructor; assumption. Qed.

Lemma Forall2_imp : forall {X Y} (P Q : X -> Y -> Prop) l r, (forall x y, P x y -> Q x y) -> Forall2 P l r -> Forall2 Q l r.
Proof. intros X Y P Q l r I H. induction H; constructor; auto. Qed.

Lemma cast_int32_inv : forall (x : R) z, cast_int32 x = Ok z -> z = Ztrunc x.
Proof.
  intros x z H. unfold cast_int32 in H. cbn [ntrunc RA] in H.
  destruct ((- 2 ^ 31 <=? Ztrunc x) && (Ztrunc x <? 2 ^ 31))%Z; [|discriminate]. congruence.
Qed.

Lemma cast_int32_ok : forall (x : R), (- 2 ^ 31 <= Ztrunc x < 2 ^ 31)%Z -> cast_int32 x = Ok (Ztrunc x).
Proof.
  intros x H. unfold cast_int32. cbn [ntrunc RA].
  destruct (Z.leb_spec (- 2 ^ 31) (Ztrunc x)); [|lia]. destruct (Z.ltb_spec (Ztrunc x) (2 ^ 31)); [|lia]. reflexivity.
Qed.

Lemma pos_cell_inv : forall (ox oy res x y : R) c, pos_cell ox oy res x y = Ok c ->
  fst c = Ztrunc ((x - ox) / res) /\ snd c = Ztrunc ((y - oy) / res).
Proof.
  intros ox oy res x y c H. unfold pos_cell in H. apply bind_ok in H. destruct H as (cx & H1 & H).
  apply bind_ok in H. destruct H as (cy & H2 & H). injection H as <-.
  apply cast_int32_inv in H1, H2. cbn [nsub ndiv RA] in *. auto.
Qed.

Lemma scan_rays_inv : forall (ox oy res : R) s rays, scan_rays ox oy res s = Ok rays ->
  Forall2 (fun b r => (fst (fst r) = Ztrunc ((px (fst b) - ox) / res) /\ snd (fst r) = Ztrunc ((py (fst b) - oy) / res)) /\
                      (fst (snd r) = Ztrunc ((px (snd b) - ox) / res) /\ snd (snd r) = Ztrunc ((py (snd b) - oy) / res)))
    (map (fun q => (sensor s, q)) (world s)) rays.
Proof.
  intros ox oy res s rays H. unfold scan_rays in H. apply bind_ok in H. destruct H as (st & H1 & H).
  apply pos_cell_inv in H1. apply mapM_Forall2 in H. unfold world. rewrite map_map. apply Forall2_map_l.
  revert H. apply Forall2_imp. intros q r H. apply bind_ok in H. destruct H as (en & H2 & H). injection H as <-.
  apply pos_cell_inv in H2. cbn [fst snd sensor px py]. split; [exact H1|].
  cbn [nadd nsub nmul ncos nsin RA] in H2. unfold move. cbn [px py].
  destruct H2 as (H2 & H3). rewrite H2, H3. split; do 3 f_equal; ring.
Qed.

Lemma flat_map_concat : forall {X Y} (f : X -> list Y) l, flat_map f l = concat (map f l).
Proof. intros. apply flat_map_concat_map. Qed.

Theorem occ_values : forall (o o' : occ R) scans m, occ_get_msg o scans = Ok (o', m) ->
  exists rays ms,
    Forall2 (fun b r => cell_at m (fst b) (fst r) /\ cell_at m (snd b) (snd r)) (beams scans) rays /\
    Forall2 (fun r t => trace_ray (fst r) (snd r) = Ok t) rays ms /\
    forall k v, nth_error (om_data m) k = Some v ->
      let h := hits (om_width m) ms k in
      let n := (h + frees (om_width m) ms k)%nat in
      (v = -1 \/ v = 0 \/ v = 100)%Z /\
      (v = (-1)%Z <-> n = 0%nat) /\
      (v = 100%Z <-> (0 < n)%nat /\ og_thresh o < INR h / INR n).
Proof.
  intros o o' scans m H. unfold occ_get_msg in H. apply bind_ok in H. destruct H as (m' & H & E). injection E as <- <-.
  assert (TH : og_thresh (refresh o scans) = og_thresh o).
  { unfold refresh. destruct (length scans =? og_num o)%nat; [reflexivity|]. unfold update_bounds, snap. cbn [og_thresh].
    assert (BS : forall s q, og_thresh (bound_scan q s) = og_thresh q).
    { intros s. unfold bound_scan. induction (s_pts s) as [|p ps IH]; intro q; cbn [fold_left]; [reflexivity|]. rewrite IH. reflexivity. }
    generalize (skipn (og_num o) scans). intro l. clear -BS. revert o.
    induction l as [|s l IH]; intro o; cbn [fold_left]; [reflexivity|]. rewrite IH. apply BS. }
  destruct (render_counts _ _ _ H) as (rays & ms & M1 & M2 & RS & _ & _ & LD & V).
  exists (concat rays), ms. cbn [nsingle RA] in RS.
  split; [|split].
  - unfold beams. rewrite flat_map_concat. apply Forall2_concat. apply mapM_Forall2 in M1.
    apply Forall2_map_l. revert M1. apply Forall2_imp. intros s rs Hs. apply scan_rays_inv in Hs.
    revert Hs. apply Forall2_imp. intros b r. unfold cell_at. rewrite RS. tauto.
  - apply mapM_Forall2. exact M2.
  - intros k v Hk h n.
    assert (B : (k < length (om_data m'))%nat) by (apply nth_error_Some; congruence).
    rewrite (V k B) in Hk. injection Hk as <-. fold h. rewrite TH.
    set (f := frees (om_width m') ms k) in *. unfold cell_value. ra. rewrite <- Nat2Z.inj_add. fold n.
    rewrite <- !INR_IZR_INZ.
    destruct (Rlt_bool_spec (1 / 2) (INR n)) as [P|P].
    + assert (N : (0 < n)%nat). { destruct n; [cbn in P; lra|lia]. }
      destruct (Rlt_bool_spec (og_thresh o) (INR h / INR n)) as [Q|Q].
      * repeat split; auto; try lia; try discriminate.
      * repeat split; auto; try lia; try discriminate. intros (_ & ?). lra.
    + assert (N : n = 0%nat). { destruct n; [reflexivity|]. rewrite S_INR in P. pose proof (pos_INR n). lra. }
      repeat split; auto; try lia; try discriminate.
Qed.

(** * Bounds *)
Lemma IZR_div_res : forall z res, 0 < res -> IZR z * res / res = IZR z.
Proof. intros. field. lra. Qed.

Lemma floor_min : forall a b, Zfloor (Rmin a b) = Z.min (Zfloor a) (Zfloor b).
Proof.
  intros a b. unfold Rmin. destruct (Rle_dec a b) as [H|H].
  - rewrite Z.min_l; [reflexivity|]. apply Zfloor_le. exact H.
  - rewrite Z.min_r; [reflexivity|]. apply Zfloor_le. lra.
Qed.
Lemma ceil_max : forall a b, Zceil (Rmax a b) = Z.max (Zceil a) (Zceil b).
Proof.
  intros a b. unfold Rmax. destruct (Rle_dec a b) as [H|H].
  - rewrite Z.max_r; [reflexivity|]. apply Zceil_le. exact H.
  - rewrite Z.max_l; [reflexivity|]. apply Zceil_le. lra.
Qed.

Section Bounds.
Context (res : R) (Hres : 0 < res).
Let fl (x : R) : Z := Zfloor (x / res).
Let ce (x : R) : Z := Zceil (x / res).

Lemma div_min : forall a b, Rmin a b / res = Rmin (a / res) (b / res).
Proof. 
  intros a b. assert (H : 0 < / res) by (apply Rinv_0_lt_compat; exact Hres). unfold Rdiv, Rmin.
  destruct (Rle_dec a b), (Rle_dec (a * / res) (b * / res)); nra.
 Qed.
Lemma div_max : forall a b, Rmax a b / res = Rmax (a / res) (b / res).
Proof. 
  intros a b. assert (H : 0 < / res) by (apply Rinv_0_lt_compat; exact Hres). unfold Rdiv, Rmax.
  destruct (Rle_dec a b), (Rle_dec (a * / res) (b * / res)); nra.
 Qed.

Lemma fl_fold : forall xs m, fl (fold_left Rmin xs m) = fold_left Z.min (map fl xs) (fl m).
Proof.
  induction xs as [|x xs IH]; intro m; cbn [fold_left map]; [reflexivity|]. rewrite IH. f_equal.
  unfold fl. rewrite div_min. apply floor_min.
Qed.
Lemma ce_fold : forall xs m, ce (fold_left Rmax xs m) = fold_left Z.max (map ce xs) (ce m).
Proof.
  induction xs as [|x xs IH]; intro m; cbn [fold_left map]; [reflexivity|]. rewrite IH. f_equal.
  unfold ce. rewrite div_max. apply ceil_max.
Qed.
Lemma fl_mult : forall z, fl (IZR z * res) = z.
Proof. intro z. unfold fl. rewrite IZR_div_res by exact Hres. apply Zfloor_IZR. Qed.
Lemma ce_mult : forall z, ce (IZR z * res) = z.
Proof. intro z. unfold ce. rewrite IZR_div_res by exact Hres. apply Zceil_IZR. Qed.

(** Snapping before or after taking the minimum is the same. *)
Lemma fl_snap : forall xs m, fl (fold_left Rmin xs (IZR (fl m) * res)) = fl (fold_left Rmin xs m).
Proof. intros. rewrite !fl_fold, fl_mult. reflexivity. Qed.
Lemma ce_snap : forall xs m, ce (fold_left Rmax xs (IZR (ce m) * res)) = ce (fold_left Rmax xs m).
Proof. intros. rewrite !ce_fold, ce_mult. reflexivity. Qed.

Lemma nmin_R : forall a b : R, nmin a b = Rmin b a.
Proof. intros a b. ra. destruct (Rlt_bool_spec b a); unfold Rmin; destruct (Rle_dec b a); lra. Qed.
Lemma nmax_R : forall a b : R, nmax a b = Rmax b a.
Proof. intros a b. ra. destruct (Rlt_bool_spec a b); unfold Rmax; destruct (Rle_dec b a); lra. Qed.

Lemma bound_scan_R : forall s (o : occ R), bound_scan o s =
  mkOcc (og_res o) (og_thresh o)
    (fold_left Rmin (map px (world s)) (og_minx o)) (fold_left Rmax (map px (world s)) (og_maxx o))
    (fold_left Rmin (map py (world s)) (og_miny o)) (fold_left Rmax (map py (world s)) (og_maxy o)) (og_num o).
Proof.
  intros s. unfold bound_scan, world. induction (s_pts s) as [|p ps IH]; intro o; cbn [fold_left map].
  - destruct o; reflexivity.
  - rewrite IH. unfold bound_point. cbn [og_res og_thresh og_minx og_maxx og_miny og_maxy og_num].
    rewrite !nmin_R, !nmax_R, place_move. reflexivity.
Qed.

Lemma bound_scans_R : forall l (o : occ R), fold_left bound_scan l o =
  mkOcc (og_res o) (og_thresh o)
    (fold_left Rmin (map px (worlds l)) (og_minx o)) (fold_left Rmax (map px (worlds l)) (og_maxx o))
    (fold_left Rmin (map py (worlds l)) (og_miny o)) (fold_left Rmax (map py (worlds l)) (og_maxy o)) (og_num o).
Proof.
  induction l as [|s l IH]; intro o; cbn [fold_left]; [destruct o; reflexivity|].
  rewrite IH, bound_scan_R. unfold worlds. cbn [flat_map og_res og_thresh og_minx og_maxx og_miny og_maxy og_num].
  rewrite !map_app, !fold_left_app. reflexivity.
Qed.

Lemma skipn_exact : forall {X} (a b : list X), skipn (length a) (a ++ b) = b.
Proof. intros. induction a; cbn; auto. Qed.

Context (thresh : R).

Lemma update_batch : forall a b, update_bounds (batch res thresh a) (a ++ b) = batch res thresh (a ++ b).
Proof.
  intros a b. unfold update_bounds. change (og_num (batch res thresh a)) with (length a). rewrite skipn_exact, bound_scans_R.
  unfold snap. cbn [og_res og_thresh og_minx og_maxx og_miny og_maxy og_num batch]. ra.
  unfold batch.
  assert (E1 : forall f : point R -> R, fl (fold_left Rmin (map f (worlds b)) (IZR (fl (lowest (map f (worlds a)))) * res)) =
    fl (lowest (map f (worlds (a ++ b))))).
  { intro f. rewrite fl_snap. unfold lowest, worlds. rewrite flat_map_app, map_app, fold_left_app. reflexivity. }
  assert (E2 : forall f : point R -> R, ce (fold_left Rmax (map f (worlds b)) (IZR (ce (highest (map f (worlds a)))) * res)) =
    ce (highest (map f (worlds (a ++ b))))).
  { intro f. rewrite ce_snap. unfold highest, worlds. rewrite flat_map_app, map_app, fold_left_app. reflexivity. }
  unfold fl, ce in E1, E2. rewrite (E1 px), (E1 py), (E2 px), (E2 py). reflexivity.
Qed.

Lemma new_batch : occ_new res thresh = batch res thresh [].
Proof.
  unfold occ_new, batch. ra. cbn [worlds flat_map map lowest highest fold_left length]. unfold lowest, highest. cbn [fold_left].
  replace (0 / res) with 0 by (field; lra). rewrite (Zfloor_IZR 0), (Zceil_IZR 0). f_equal; ring.
Qed.

Lemma refresh_batch : forall a b, refresh (batch res thresh a) (a ++ b) = batch res thresh (a ++ b).
Proof.
  intros a b. unfold refresh. change (og_num (batch res thresh a)) with (length a).
  destruct (Nat.eqb_spec (length (a ++ b)) (length a)) as [E|E]; [|apply update_batch].
  rewrite app_length in E. destruct b; [|cbn in E; lia]. rewrite app_nil_r. reflexivity.
Qed.

Lemma last_default : forall {X} (l : list X) x a b, last (x :: l) a = last (x :: l) b.
Proof. intros X l. induction l as [|y l IH]; intros x a b; [reflexivity|]. exact (IH y a b). Qed.

(** Any number of incremental updates equals a single one. *)
Theorem incremental_bounds : forall calls a, growing a calls ->
  fold_left refresh calls (batch res thresh a) = batch res thresh (last calls a).
Proof.
  induction calls as [|c calls IH]; intros a G; cbn [fold_left growing] in *; [reflexivity|].
  destruct G as ((b & ->) & G). rewrite refresh_batch, (IH _ G). destruct calls as [|c calls]; [reflexivity|].
  f_equal. exact (last_default calls c (a ++ b) a).
Qed.

Theorem no_new_points : forall a b, worlds b = [] ->
  og_minx (batch res thresh (a ++ b)) = og_minx (batch res thresh a) /\
  og_maxx (batch res thresh (a ++ b)) = og_maxx (batch res thresh a) /\
  og_miny (batch res thresh (a ++ b)) = og_miny (batch res thresh a) /\
  og_maxy (batch res thresh (a ++ b)) = og_maxy (batch res thresh a).
Proof.
  intros a b H. unfold batch. cbn [og_minx og_maxx og_miny og_maxy]. 
  assert (E : worlds (a ++ b) = worlds a) by (unfold worlds in *; rewrite flat_map_app, H; apply app_nil_r).
  rewrite E. auto.
Qed.

End Bounds.
