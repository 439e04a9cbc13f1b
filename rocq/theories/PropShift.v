(** Property C158: matching depends neither on where the map lies nor on the order
    of its scans. *)

From Coq Require Import ZArith Reals List Bool Lia Lra Psatz Permutation.
From Flocq Require Import Core.
From Verif Require Import Outcome Arith TypesModel CellModel ScanModel NdtModel MatcherModel
  SpecStats SpecGrid SpecShift SumLemmas RTactics CellProofs CellProofs2 NdtProofs NdtProofs2 MatcherProofs MatcherProofs2 MatcherWitness.
Import ListNotations.
Local Open Scope R_scope.

(** ** Sums *)
Lemma sumf_shift {X} (f : X -> R) (h : X -> X) (c : R) (l : list X) : (forall x, f (h x) = f x + c) -> sumf f (map h l) = sumf f l + INR (length l) * c.
Proof. intro H. induction l as [|x l IH]; [cbn; lra|]. cbn [map sumf length]. rewrite IH, H, S_INR. lra. Qed.
Lemma average_shift {X} (f : X -> R) (h : X -> X) (c : R) (l : list X) : l <> [] -> (forall x, f (h x) = f x + c) -> average f (map h l) = average f l + c.
Proof.
  intros N H. unfold average. rewrite (sumf_shift f h c l H), map_length. field. apply not_0_INR. destruct l; [congruence|discriminate].
Qed.
Lemma sumf_map {X} (f : X -> R) (h : X -> X) (l : list X) : sumf f (map h l) = sumf (fun x => f (h x)) l.
Proof. induction l as [|x l IH]; [reflexivity|]. cbn. rewrite IH. reflexivity. Qed.
Lemma sumf_eq {X} (f g : X -> R) (l : list X) : (forall x, f x = g x) -> sumf f l = sumf g l.
Proof. intro H. induction l as [|x l IH]; [reflexivity|]. cbn. rewrite IH, H. reflexivity. Qed.
Lemma cov_shift {X} (f g : X -> R) (h : X -> X) (c d : R) (l : list X) : l <> [] -> (forall x, f (h x) = f x + c) -> (forall x, g (h x) = g x + d) ->
  sample_cov f g (map h l) = sample_cov f g l.
Proof.
  intros N Hf Hg. unfold sample_cov. rewrite (average_shift f h c l N Hf), (average_shift g h d l N Hg), map_length, sumf_map.
  f_equal. apply sumf_eq. intro x. rewrite Hf, Hg. ring.
Qed.

(** ** One cell *)
Section Cell.
Context (eig : mat2 R -> R * R) (t : point R).

Lemma score_shift : forall pts pts' q, Permutation (map (shift_point t) pts) pts' ->
  cell_score (cell_run eig (map CAdd pts' ++ [CCompute])) (shift_point t q) = cell_score (cell_run eig (map CAdd pts ++ [CCompute])) q.
Proof.
  intros pts pts' q P.
  destruct (order_independent eig (map CAdd pts') (map CAdd (map (shift_point t) pts))) as (_ & _ & _ & _ & O); [rewrite !op_points_map_CAdd; symmetry; exact P|].
  rewrite O. clear O P pts'. destruct (Nat.lt_ge_cases (length pts) 5) as [L|L].
  - rewrite !score_few; [reflexivity| |]; rewrite count_of_run, op_points_compute, op_points_map_CAdd, ?map_length;
      replace 5 with (INR 5) by (cbn; lra); apply lt_INR; exact L.
  - assert (N : pts <> []) by (intro; subst; cbn in L; lia).
    rewrite !run_score by (rewrite op_points_map_CAdd, ?map_length; exact L). rewrite !op_points_map_CAdd.
    assert (Ex : forall x, px (shift_point t x) = px x + px t) by reflexivity. assert (Ey : forall x, py (shift_point t x) = py x + py t) by reflexivity.
    f_equal.
    + f_equal. unfold cov_matrix. f_equal; eapply cov_shift; eassumption.
    + unfold psub, mean_point. cbn [px py]. rewrite (average_shift px (shift_point t) (px t) pts N Ex), (average_shift py (shift_point t) (py t) pts N Ey).
      unfold shift_point. cbn [px py]. f_equal; ring.
Qed.

Lemma square_shift : forall ox oy w a b p, in_square_b (ox + px t) (oy + py t) w a b (shift_point t p) = in_square_b ox oy w a b p.
Proof.
  intros. apply eq_true_iff_eq. rewrite !in_square_b_spec. unfold in_square, in_interval, shift_point. cbn [px py]. split; intros [[? ?] [? ?]]; repeat split; lra.
Qed.
Lemma filter_shift : forall ox oy w a b pts, filter (in_square_b (ox + px t) (oy + py t) w a b) (map (shift_point t) pts) =
  map (shift_point t) (filter (in_square_b ox oy w a b) pts).
Proof.
  intros ox oy w a b pts. induction pts as [|p l IH]; [reflexivity|]. cbn [map filter]. rewrite square_shift.
  destruct (in_square_b ox oy w a b p); cbn [map]; rewrite IH; reflexivity.
Qed.
Lemma Permutation_filter' : forall {X} (f : X -> bool) (a b : list X), Permutation a b -> Permutation (filter f a) (filter f b).
Proof.
  intros X f a b P. induction P; cbn [filter]; [constructor| | |eapply perm_trans; eassumption].
  - destruct (f x); [constructor|]; assumption.
  - destruct (f x), (f y); try apply Permutation_refl. apply perm_swap.
Qed.
End Cell.

(** ** Two maps *)
Section Two.
Context (eig : mat2 R -> R * R) (cs sx sy ox oy : R) (g0 g : ndt R) (scans : list (scan R)).
Context (Hcs : 0 < cs) (N : ndt_new cs sx sy ox oy = Ok g0).
Context (Sm : (g_sx g0 * g_sy g0 < 2 ^ 31)%Z).
Context (Run : ndt_run eig g0 (map NAddScan scans ++ [NCompute]) = Ok g).

Lemma like_in : forall a b q, (0 <= a < g_sx g0)%Z -> (0 <= b < g_sy g0)%Z -> in_square ox oy cs a b q ->
  ndt_likelihood g q = Ok (cell_score (cell_run eig (map CAdd (filter (in_square_b ox oy cs a b) (moved_points scans)) ++ [CCompute])) q).
Proof.
  intros a b q Ha Hb Hq. destruct (ndt_new_cells _ _ _ _ _ g0 N) as (Ecs & Eox & Eoy & _). pose proof (ndt_new_wf _ _ _ _ _ g0 N Sm) as W.
  pose proof (ndt_run_geom eig g0 g _ Run) as Ge.
  unfold ndt_likelihood. rewrite <- (same_geom_index g0 g _ _ Ge), (ndt_index_of_square g0 q a b W); try (rewrite ?Ecs, ?Eox, ?Eoy); try assumption.
  cbn [bind]. destruct (ndt_cell_contents eig cs sx sy ox oy g0 g (map NAddScan scans) a b Hcs N Sm Run Ha Hb) as (c & Ec & _ & _ & _ & Es).
  rewrite added_scans_map in Es. rewrite (proj2 (Z.leb_le 0 _)) by nia. rewrite Ec. cbn [bind]. rewrite Es. reflexivity.
Qed.
End Two.

Section Both.
Context (eig : mat2 R -> R * R) (t : point R) (cs sx sy sx' sy' ox oy : R) (g0 g g0' g' : ndt R) (scans scans' : list (scan R)).
Context (Hcs : 0 < cs) (N : ndt_new cs sx sy ox oy = Ok g0) (N' : ndt_new cs sx' sy' (ox + px t) (oy + py t) = Ok g0').
Context (Sm : (g_sx g0 * g_sy g0 < 2 ^ 31)%Z) (Sm' : (g_sx g0' * g_sy g0' < 2 ^ 31)%Z).
Context (Run : ndt_run eig g0 (map NAddScan scans ++ [NCompute]) = Ok g) (Run' : ndt_run eig g0' (map NAddScan scans' ++ [NCompute]) = Ok g').
Context (Pm : Permutation (map (shift_point t) (moved_points scans)) (moved_points scans')).
Context (In_ : forall p, In p (moved_points scans) -> exists i, ndt_index g0 (px p) (py p) = Ok i /\ (0 <= i)%Z).
Context (In' : forall p, In p (moved_points scans') -> exists i, ndt_index g0' (px p) (py p) = Ok i /\ (0 <= i)%Z).

(** The squares of the points are squares of the map. *)
Lemma square_of : forall g1 ox1 oy1 sx1 sy1 p a b, ndt_new cs sx1 sy1 ox1 oy1 = Ok g1 -> (g_sx g1 * g_sy g1 < 2 ^ 31)%Z ->
  (exists i, ndt_index g1 (px p) (py p) = Ok i /\ (0 <= i)%Z) -> in_square ox1 oy1 cs a b p -> (0 <= a < g_sx g1)%Z /\ (0 <= b < g_sy g1)%Z.
Proof.
  intros g1 ox1 oy1 sx1 sy1 p a b N1 S1 (i & Ei & Pi) [Q1 Q2]. destruct (ndt_new_cells _ _ _ _ _ g1 N1) as (Ecs & Eox & Eoy & _).
  destruct (ndt_index_square g1 p i (ndt_new_wf _ _ _ _ _ g1 N1 S1)) as (a' & b' & [P1 P2] & Ba & Bb & _); [rewrite Ecs; exact Hcs|exact Ei|exact Pi|].
  rewrite Ecs, Eox in P1. rewrite Ecs, Eoy in P2. rewrite (in_interval_unique _ _ _ _ _ Hcs Q1 P1), (in_interval_unique _ _ _ _ _ Hcs Q2 P2). split; assumption.
Qed.
Lemma none_in : forall (f : point R -> bool) l, (forall p, In p l -> f p = true -> False) -> filter f l = [].
Proof.
  intros f l H. induction l as [|p l IH]; [reflexivity|]. cbn. destruct (f p) eqn:E; [destruct (H p (or_introl eq_refl) E)|]. apply IH. intros p0 I0. apply H. right. exact I0.
Qed.
Lemma score_none : forall q, cell_score (cell_run eig (map CAdd [] ++ [CCompute])) q = 0.
Proof. intro q. rewrite score_few; [reflexivity|]. rewrite count_of_run. cbn. lra. Qed.

Lemma like_shift : forall q, ndt_likelihood g' (shift_point t q) = ndt_likelihood g q.
Proof.
  intro q.
  pose proof (fun a b q => like_in eig cs sx sy ox oy g0 g scans Hcs N Sm Run a b q) as L.
  pose proof (fun a b q => like_in eig cs sx' sy' (ox + px t) (oy + py t) g0' g' scans' Hcs N' Sm' Run' a b q) as L'.
  destruct (ndt_new_cells _ _ _ _ _ g0 N) as (Ecs & Eox & Eoy & _). destruct (ndt_new_cells _ _ _ _ _ g0' N') as (Ecs' & Eox' & Eoy' & _).
  pose proof (ndt_run_geom eig g0 g _ Run) as Ge. pose proof (ndt_run_geom eig g0' g' _ Run') as Ge'.
  assert (Sh : forall a b, in_square (ox + px t) (oy + py t) cs a b (shift_point t q) <-> in_square ox oy cs a b q) by (intros; rewrite <- !in_square_b_spec, square_shift; reflexivity).
  destruct (Rlt_or_le (px q) ox) as [Lx|Lx].
  { unfold ndt_likelihood. rewrite <- (same_geom_index g0 g _ _ Ge), <- (same_geom_index g0' g' _ _ Ge').
    rewrite !ndt_left_below; [reflexivity| |]; left; rewrite ?Eox, ?Eox'; unfold shift_point; cbn [px]; lra. }
  destruct (Rlt_or_le (py q) oy) as [Ly|Ly].
  { unfold ndt_likelihood. rewrite <- (same_geom_index g0 g _ _ Ge), <- (same_geom_index g0' g' _ _ Ge').
    rewrite !ndt_left_below; [reflexivity| |]; right; rewrite ?Eoy, ?Eoy'; unfold shift_point; cbn [py]; lra. }
  set (a := Ztrunc ((px q - ox) / cs)). set (b := Ztrunc ((py q - oy) / cs)).
  assert (Pa : (0 <= a)%Z) by (apply Ztrunc_nonneg_div; assumption). assert (Pb : (0 <= b)%Z) by (apply Ztrunc_nonneg_div; assumption).
  assert (Sq : in_square ox oy cs a b q) by (split; apply Ztrunc_interval; try assumption; reflexivity).
  assert (Sq' : in_square (ox + px t) (oy + py t) cs a b (shift_point t q)) by (apply Sh; exact Sq).
  assert (Pf : Permutation (map (shift_point t) (filter (in_square_b ox oy cs a b) (moved_points scans))) (filter (in_square_b (ox + px t) (oy + py t) cs a b) (moved_points scans'))).
  { rewrite <- filter_shift. apply Permutation_filter'. exact Pm. }
  (* inside and outside *)
  assert (Out : ~ ((a < g_sx g0)%Z /\ (b < g_sy g0)%Z) -> filter (in_square_b ox oy cs a b) (moved_points scans) = []).
  { intro O. apply none_in. intros p Ip E. apply in_square_b_spec in E. apply O. destruct (square_of g0 ox oy sx sy p a b N Sm (In_ p Ip) E). lia. }
  assert (Out' : ~ ((a < g_sx g0')%Z /\ (b < g_sy g0')%Z) -> filter (in_square_b (ox + px t) (oy + py t) cs a b) (moved_points scans') = []).
  { intro O. apply none_in. intros p Ip E. apply in_square_b_spec in E. apply O. destruct (square_of g0' _ _ sx' sy' p a b N' Sm' (In' p Ip) E). lia. }
  (* what the index does *)
  assert (Ix : forall g1, g_cs g1 = cs -> g_ox g1 = ox -> g_oy g1 = oy -> ndt_index g1 (px q) (py q) =
     bind (cast_unsigned 32 ((px q - ox) / cs)) (fun gx => bind (cast_unsigned 32 ((py q - oy) / cs)) (fun gy =>
       if ((g_sx g1 <=? gx) || (g_sy g1 <=? gy))%Z then Ok (-1)%Z else Ok (to_int32 (wrap64 (wrap64 (gy * g_sx g1) + gx)))))).
  { intros g1 F1 F2 F3. unfold ndt_index. rewrite F1, F2, F3. ra. rewrite !Rlt_bool_false by assumption. reflexivity. }
  assert (Ix' : forall g1, g_cs g1 = cs -> g_ox g1 = ox + px t -> g_oy g1 = oy + py t -> ndt_index g1 (px (shift_point t q)) (py (shift_point t q)) =
     bind (cast_unsigned 32 ((px q - ox) / cs)) (fun gx => bind (cast_unsigned 32 ((py q - oy) / cs)) (fun gy =>
       if ((g_sx g1 <=? gx) || (g_sy g1 <=? gy))%Z then Ok (-1)%Z else Ok (to_int32 (wrap64 (wrap64 (gy * g_sx g1) + gx)))))).
  { intros g1 F1 F2 F3. unfold ndt_index. rewrite F1, F2, F3. unfold shift_point. cbn [px py]. ra. rewrite !Rlt_bool_false by lra. cbn [orb].
    replace (px q + px t - (ox + px t)) with (px q - ox) by ring. replace (py q + py t - (oy + py t)) with (py q - oy) by ring. reflexivity. }
  destruct (cast_unsigned 32 ((px q - ox) / cs)) as [gx|f] eqn:Cx;
    [|unfold ndt_likelihood; rewrite <- (same_geom_index g0 g _ _ Ge), <- (same_geom_index g0' g' _ _ Ge'), (Ix g0), (Ix' g0') by assumption; reflexivity].
  destruct (cast_unsigned 32 ((py q - oy) / cs)) as [gy|f] eqn:Cy;
    [|unfold ndt_likelihood; rewrite <- (same_geom_index g0 g _ _ Ge), <- (same_geom_index g0' g' _ _ Ge'), (Ix g0), (Ix' g0') by assumption; reflexivity].
  apply cast_unsigned_inv in Cx. apply cast_unsigned_inv in Cy. destruct Cx as [Cx _]. destruct Cy as [Cy _].
  cbn [ntrunc RA] in Cx, Cy. injection Cx as Cx. injection Cy as Cy. fold a in Cx. fold b in Cy. subst gx gy.
  assert (Zr : ~ ((a < g_sx g0)%Z /\ (b < g_sy g0)%Z) -> ndt_likelihood g q = Ok 0).
  { intro O. unfold ndt_likelihood. rewrite <- (same_geom_index g0 g _ _ Ge), (Ix g0) by assumption. cbn [bind].
    assert (E : ((g_sx g0 <=? a) || (g_sy g0 <=? b))%Z = true) by (apply orb_true_iff; rewrite !Z.leb_le; lia). rewrite E. reflexivity. }
  assert (Zr' : ~ ((a < g_sx g0')%Z /\ (b < g_sy g0')%Z) -> ndt_likelihood g' (shift_point t q) = Ok 0).
  { intro O. unfold ndt_likelihood. rewrite <- (same_geom_index g0' g' _ _ Ge'), (Ix' g0') by assumption. cbn [bind].
    assert (E : ((g_sx g0' <=? a) || (g_sy g0' <=? b))%Z = true) by (apply orb_true_iff; rewrite !Z.leb_le; lia). rewrite E. reflexivity. }
  assert (D : forall u v : Z, ((a < u)%Z /\ (b < v)%Z) \/ ~ ((a < u)%Z /\ (b < v)%Z)) by (intros; lia).
  destruct (D (g_sx g0) (g_sy g0)) as [I|O], (D (g_sx g0') (g_sy g0')) as [I'|O'].
  - rewrite (L a b q), (L' a b (shift_point t q)) by (try assumption; lia). f_equal. apply score_shift. exact Pf.
  - rewrite (L a b q), (Zr' O') by (try assumption; lia). rewrite (Out' O') in Pf. apply Permutation_sym, Permutation_nil, map_eq_nil in Pf. rewrite Pf, score_none. reflexivity.
  - rewrite (L' a b (shift_point t q)), (Zr O) by (try assumption; lia). rewrite (Out O) in Pf. apply Permutation_nil in Pf. rewrite Pf, score_none. reflexivity.
  - rewrite (Zr O), (Zr' O'). reflexivity.
Qed.
End Both.

(** ** The maps addScans builds *)
Section Build.
Context (eig : mat2 R -> R * R) (t : point R) (m k k' : matcher R) (g g' : ndt R) (scans scans' : list (scan R)).
Context (Hr : 0 < k_resolution m) (Hm : 0 <= k_range m) (Ne : scans <> []) (El : elsewhere t scans scans').
Context (Rg : in_range (k_range m) scans) (F : fits (k_range m) scans) (F' : fits (k_range m) scans').
Context (B : add_scans eig m scans = Ok k) (B' : add_scans eig m scans' = Ok k').
Context (K : k_ndt k = Some g) (K' : k_ndt k' = Some g').
Context (Sm : (g_sx g * g_sy g < 2 ^ 31)%Z) (Sm' : (g_sx g' * g_sy g' < 2 ^ 31)%Z).

Lemma there : forall s, In s scans -> exists s', In s' scans' /\ s_pose s' = shift_pose t (s_pose s) /\ s_pts s' = s_pts s.
Proof.
  intros s I. apply (in_map (fun s => (shift_pose t (s_pose s), s_pts s))) in I. apply (Permutation_in _ El) in I. apply in_map_iff in I.
  destruct I as (s' & E & I). injection E as E1 E2. exists s'. auto.
Qed.
Lemma back_ : forall s', In s' scans' -> exists s, In s scans /\ s_pose s' = shift_pose t (s_pose s) /\ s_pts s' = s_pts s.
Proof.
  intros s' I. apply (in_map (fun s => (s_pose s, s_pts s))) in I. apply (Permutation_in _ (Permutation_sym El)) in I. apply in_map_iff in I.
  destruct I as (s & E & I). injection E as E1 E2. exists s. auto.
Qed.
Lemma move_shift : forall q p, move (shift_pose t q) p = shift_point t (move q p).
Proof. intros. unfold move, shift_pose, shift_point. cbn [pox poy poth px py]. f_equal; ring. Qed.

Lemma moved_elsewhere : Permutation (map (shift_point t) (moved_points scans)) (moved_points scans').
Proof.
  set (f := fun x : pose R * list (point R) => map (move (fst x)) (snd x)).
  assert (E : forall l, moved_points l = flat_map f (map (fun s => (s_pose s, s_pts s)) l)).
  { intro l. unfold moved_points. induction l as [|s l IH]; [reflexivity|]. cbn. rewrite IH. reflexivity. }
  assert (E' : map (shift_point t) (moved_points scans) = flat_map f (map (fun s => (shift_pose t (s_pose s), s_pts s)) scans)).
  { clear. unfold moved_points. induction scans as [|s l IH]; [reflexivity|]. cbn [flat_map map]. rewrite map_app, IH. f_equal.
    unfold f. cbn [fst snd]. rewrite map_map. apply map_ext. intro p. symmetry. apply move_shift. }
  rewrite E', E. apply Permutation_flat_map. exact El.
Qed.

Lemma maxval_1023 : 2 ^ 1023 < bpow radix2 1024 - bpow radix2 971.
Proof.
  assert (H : bpow radix2 971 < bpow radix2 1023) by (apply bpow_lt; lia).
  assert (H2 : bpow radix2 1024 = 2 * bpow radix2 1023) by (replace 1024%Z with (1 + 1023)%Z by lia; rewrite bpow_plus; reflexivity).
  assert (H3 : bpow radix2 1023 = 2 ^ 1023) by (rewrite (bpow_powerRZ radix2 1023); change (radix2 : Z) with 2%Z; change 1023%Z with (Z.of_nat 1023); rewrite <- pow_powerRZ; reflexivity).
  rewrite <- H3. lra.
Qed.

(** The origin is the lowest corner. *)
Lemma corner : forall (l : list (scan R)) k1 g1, l <> [] -> fits (k_range m) l -> add_scans eig m l = Ok k1 -> k_ndt k1 = Some g1 ->
  is_min_of (fun s => pox (s_pose s) - k_range m) l (g_ox g1) /\ is_min_of (fun s => poy (s_pose s) - k_range m) l (g_oy g1).
Proof.
  intros l k1 g1 Nl Fl H Hg. apply add_scans_run in H. cbv zeta in H. destruct H as (g0 & g2 & H0 & Hrun & ->). cbn in Hg. injection Hg as ->.
  pose proof (ndt_run_geom eig g0 g1 _ Hrun) as (_ & _ & _ & <- & <- & _). destruct (ndt_new_cells _ _ _ _ _ g0 H0) as (_ & -> & -> & _).
  pose proof (box_attained (k_range m) l box_init) as Hat. cbv zeta in Hat. fold (scans_box (k_range m) l) in Hat.
  assert (Hc : forall s, In s l -> _) by (intros s Hs; exact (box_contains (k_range m) l s box_init Hs)).
  cbv zeta in Hc. fold (scans_box (k_range m) l) in Hc. set (b := scans_box (k_range m) l) in *. clearbody b.
  unfold box_init in Hat. cbn [b_minx b_maxx b_miny b_maxy nmaxval nminpos RA] in Hat. destruct Hat as (A1 & _ & A3 & _).
  destruct l as [|s0 l0]; [congruence|]. destruct (Hc s0 (or_introl eq_refl)) as (B1 & _ & B3 & _). destruct (Fl s0 (or_introl eq_refl)) as [F1 F2].
  pose proof maxval_1023 as Mv.
  split; (split; [|intros s Hs; apply (Hc s Hs)]).
  - destruct A1 as [E|E]; [|exact E]. exfalso. lra.
  - destruct A3 as [E|E]; [|exact E]. exfalso. lra.
Qed.

Lemma ne' : scans' <> [].
Proof. intro E. assert (X : exists s, In s scans) by (destruct scans as [|s l]; [congruence|exists s; left; reflexivity]). destruct X as (s & X). destruct (there s X) as (s' & I & _). rewrite E in I. exact I. Qed.
Lemma origin_shift : g_ox g' = g_ox g + px t /\ g_oy g' = g_oy g + py t.
Proof.
  destruct (corner scans k g Ne F B K) as [[(s1 & I1 & E1) L1] [(s2 & I2 & E2) L2]].
  destruct (corner scans' k' g' ne' F' B' K') as [[(s3 & I3 & E3) L3] [(s4 & I4 & E4) L4]].
  cbv beta in *. split.
  - destruct (there s1 I1) as (s1' & J1 & P1 & _). destruct (back_ s3 I3) as (s3' & J3 & P3 & _).
    specialize (L3 s1' J1). specialize (L1 s3' J3). rewrite P1 in L3. rewrite P3 in E3. unfold shift_pose in *. cbn [pox] in *. lra.
  - destruct (there s2 I2) as (s2' & J2 & P2 & _). destruct (back_ s4 I4) as (s4' & J4 & P4 & _).
    specialize (L4 s2' J2). specialize (L2 s4' J4). rewrite P2 in L4. rewrite P4 in E4. unfold shift_pose in *. cbn [poy] in *. lra.
Qed.

Lemma near_robot : forall r q p, 0 <= r -> px p * px p + py p * py p <= r * r -> Rabs (px (move q p) - pox q) <= r /\ Rabs (py (move q p) - poy q) <= r.
Proof.
  intros r q p Hr0 H. unfold move. cbn [px py]. pose proof (sin2_cos2 (poth q)) as T. unfold Rsqr in T.
  set (c := cos (poth q)) in *. set (s := sin (poth q)) in *. clearbody c s.
  assert (K1 : forall u v, u * u + v * v <= r * r -> Rabs u <= r).
  { intros u v Huv. apply Rabs_le. split; nra. }
  split.
  - apply K1 with (v := s * px p + c * py p). replace (c * px p - s * py p + pox q - pox q) with (c * px p - s * py p) by ring.
    replace ((c * px p - s * py p) * (c * px p - s * py p) + (s * px p + c * py p) * (s * px p + c * py p)) with ((s * s + c * c) * (px p * px p + py p * py p)) by ring. rewrite T. lra.
  - apply K1 with (v := c * px p - s * py p). replace (s * px p + c * py p + poy q - poy q) with (s * px p + c * py p) by ring.
    replace ((s * px p + c * py p) * (s * px p + c * py p) + (c * px p - s * py p) * (c * px p - s * py p)) with ((s * s + c * c) * (px p * px p + py p * py p)) by ring. rewrite T. lra.
Qed.
Lemma all_in : forall l k1 g1, in_range (k_range m) l -> add_scans eig m l = Ok k1 -> k_ndt k1 = Some g1 -> (g_sx g1 * g_sy g1 < 2 ^ 31)%Z ->
  forall p, In p (moved_points l) -> exists i, ndt_index g1 (px p) (py p) = Ok i /\ (0 <= i)%Z.
Proof.
  intros l k1 g1 Rl H Hg Hn p I. unfold moved_points in I. apply in_flat_map in I. destruct I as (s & Is & Ip). apply in_map_iff in Ip. destruct Ip as (q & <- & Iq).
  destruct (near_robot (k_range m) (s_pose s) q Hm (Rl s q Is Iq)) as [E1 E2].
  destruct (add_scans_covers eig m k1 g1 l s (move (s_pose s) q) Hr H Hg Hn Is E1 E2) as (i & Ei & Pi). exists i. split; [exact Ei|lia].
Qed.

Lemma built_like : forall q, ndt_likelihood g' (shift_point t q) = ndt_likelihood g q.
Proof.
  assert (Rg' : in_range (k_range m) scans').
  { intros s' p I Ip. destruct (back_ s' I) as (s & J & _ & Q). rewrite Q in Ip. exact (Rg s p J Ip). }
  pose proof (all_in scans k g Rg B K Sm) as A1. pose proof (all_in scans' k' g' Rg' B' K' Sm') as A2. destruct origin_shift as [O1 O2].
  pose proof B as C. pose proof B' as C'. apply add_scans_run in C. apply add_scans_run in C'. cbv zeta in C, C'.
  destruct C as (g0 & g1 & N0 & R0 & Ek). destruct C' as (g0' & g1' & N0' & R0' & Ek'). rewrite Ek in K. rewrite Ek' in K'. cbn in K, K'. injection K as ->. injection K' as ->.
  pose proof (ndt_run_geom eig g0 g _ R0) as G. pose proof (ndt_run_geom eig g0' g' _ R0') as G'.
  pose proof (same_geom_index g0 g) as Ix. pose proof (same_geom_index g0' g') as Ix'.
  destruct (ndt_new_cells _ _ _ _ _ g0 N0) as (_ & X0 & Y0 & _). destruct (ndt_new_cells _ _ _ _ _ g0' N0') as (_ & X0' & Y0' & _).
  assert (H1 : b_minx (scans_box (k_range m) scans') = b_minx (scans_box (k_range m) scans) + px t).
  { destruct G as (_ & _ & _ & Gx & _). destruct G' as (_ & _ & _ & Gx' & _). rewrite <- X0, <- X0'. congruence. }
  assert (H2 : b_miny (scans_box (k_range m) scans') = b_miny (scans_box (k_range m) scans) + py t).
  { destruct G as (_ & _ & _ & _ & Gy & _). destruct G' as (_ & _ & _ & _ & Gy' & _). rewrite <- Y0, <- Y0'. congruence. }
  rewrite H1, H2 in N0'.
  assert (S0 : (g_sx g0 * g_sy g0 < 2 ^ 31)%Z) by (destruct G as (_ & -> & -> & _); exact Sm).
  assert (S0' : (g_sx g0' * g_sy g0' < 2 ^ 31)%Z) by (destruct G' as (_ & -> & -> & _); exact Sm').
  eapply (like_shift eig t _ _ _ _ _ _ _ g0 g g0' g' scans scans' Hr N0 N0' S0 S0' R0 R0' moved_elsewhere).
  - intros p I. rewrite (Ix _ _ G). exact (A1 p I).
  - intros p I. rewrite (Ix' _ _ G'). exact (A2 p I).
Qed.

Lemma like_points_shift : forall pts, ndt_likelihood_points g' (map (shift_point t) pts) = ndt_likelihood_points g pts.
Proof.
  intro pts. unfold ndt_likelihood_points. generalize (nzero (T := R)). induction pts as [|p l IH]; intro z; [reflexivity|].
  cbn [map foldM]. rewrite built_like. destruct (ndt_likelihood g p); cbn [bind]; [apply IH|reflexivity].
Qed.

Lemma same_settings : k_beams k' = k_beams k /\ k_ang_size k' = k_ang_size k /\ k_ang_res k' = k_ang_res k /\ k_lin_size k' = k_lin_size k /\ k_lin_res k' = k_lin_res k.
Proof.
  pose proof B as C. pose proof B' as C'. apply add_scans_run in C. apply add_scans_run in C'. cbv zeta in C, C'.
  destruct C as (g0 & g1 & _ & _ & ->). destruct C' as (g0' & g1' & _ & _ & ->). repeat split.
Qed.

Lemma foldM_ext {S X} (f h : S -> X -> outcome S) (xs : list X) : (forall s x, f s x = h s x) -> forall s, foldM f s xs = foldM h s xs.
Proof. intros E. induction xs as [|x xs IH]; intro s; [reflexivity|]. cbn. rewrite E. destruct (h s x); cbn; [apply IH|reflexivity]. Qed.

Lemma match_shift : forall fuel s s' p cov, s_pose s' = shift_pose t (s_pose s) -> s_pts s' = s_pts s -> match_scan fuel k' s' p cov = match_scan fuel k s p cov.
Proof.
  intros fuel s s' p cov E1 E2. destruct same_settings as (Q1 & Q2 & Q3 & Q4 & Q5). unfold match_scan. rewrite K, K', Q2, Q3, Q4, Q5, E2.
  assert (Qb : beams_used k' (s_pts s) = beams_used k (s_pts s)) by (unfold beams_used; rewrite Q1; reflexivity).
  assert (Qp : beam_points k' (s_pts s) = beam_points k (s_pts s)) by (unfold beam_points, scan_step_size; rewrite Qb; reflexivity).
  rewrite Qb. destruct (loop_values fuel (nopp (k_ang_size k)) (k_ang_size k) (k_ang_res k)) as [dths|]; cbn [bind]; [|reflexivity].
  destruct (loop_values fuel (nopp (k_lin_size k)) (k_lin_size k) (k_lin_res k)) as [ds|]; cbn [bind]; [|reflexivity].
  erewrite foldM_ext; [reflexivity|]. intros w dth. rewrite Qp. destruct (beam_points k (s_pts s)) as [bp|]; cbn [bind]; [|reflexivity].
  apply foldM_ext. intros w1 dx. apply foldM_ext. intros w2 dy. unfold match_step.
  assert (Ep : inner_points dx dy (outer_points (s_pose s') dth bp) = map (shift_point t) (inner_points dx dy (outer_points (s_pose s) dth bp))).
  { unfold inner_points, outer_points. rewrite !map_map. apply map_ext. intro q. rewrite E1. unfold shift_point, shift_pose. cbn [px py pox poy poth]. ra. f_equal; ring. }
  rewrite Ep, like_points_shift. reflexivity.
Qed.

Lemma score_points_shift : forall pts q, score_points k' pts (shift_pose t q) = score_points k pts q.
Proof.
  intros pts q. destruct same_settings as (Q1 & _). unfold score_points. rewrite K, K'.
  assert (Qb : beams_used k' pts = beams_used k pts) by (unfold beams_used; rewrite Q1; reflexivity).
  unfold scan_step_size. rewrite Qb. erewrite foldM_ext; [reflexivity|]. intros z i. cbv beta.
  destruct (beam_index _ i) as [idx|]; cbn [bind]; [|reflexivity]. destruct (vec_get pts idx) as [p|]; cbn [bind]; [|reflexivity].
  rewrite !iso_move, move_shift, built_like. reflexivity.
Qed.
End Build.

(** The score, the correction and the covariance, or the failure, are the same. *)
Theorem C158_matching_elsewhere : forall (eig : mat2 R -> R * R) (t : point R) (m k k' : matcher R) (g g' : ndt R) (scans scans' : list (scan R)),
  0 < k_resolution m -> 0 <= k_range m -> scans <> [] -> elsewhere t scans scans' ->
  in_range (k_range m) scans -> fits (k_range m) scans -> fits (k_range m) scans' ->
  add_scans eig m scans = Ok k -> add_scans eig m scans' = Ok k' -> k_ndt k = Some g -> k_ndt k' = Some g' ->
  (g_sx g * g_sy g < 2 ^ 31)%Z -> (g_sx g' * g_sy g' < 2 ^ 31)%Z ->
  (forall fuel s s' p cov, s_pose s' = shift_pose t (s_pose s) -> s_pts s' = s_pts s -> match_scan fuel k' s' p cov = match_scan fuel k s p cov) /\
  (forall pts q, score_points k' pts (shift_pose t q) = score_points k pts q).
Proof.
  intros eig t m k k' g g' scans scans' Hr Hm Ne El Rg F F' B B' K K' Sm Sm'. split.
  - exact (match_shift eig t m k k' g g' scans scans' Hr Hm Ne El Rg F F' B B' K K' Sm Sm').
  - exact (score_points_shift eig t m k k' g g' scans scans' Hr Hm Ne El Rg F F' B B' K K' Sm Sm').
Qed.
Print Assumptions C158_matching_elsewhere.

(** A map of one scan and the same scan five metres further; a scan that matches. *)
Definition demo_there : scan R := mkScan 7 true (mkPose 5 5 0) (mkPose 0 0 0) square_points.
Definition five : point R := mkPoint 5 5.
Example C158_nonvacuous : exists k k' g g' r p' cov',
  0 < k_resolution (wm 1 1 1 1) /\ 0 <= k_range (wm 1 1 1 1) /\ elsewhere five [demo_scan] [demo_there] /\
  in_range (k_range (wm 1 1 1 1)) [demo_scan] /\ fits (k_range (wm 1 1 1 1)) [demo_scan] /\ fits (k_range (wm 1 1 1 1)) [demo_there] /\
  add_scans eig_exact (wm 1 1 1 1) [demo_scan] = Ok k /\ add_scans eig_exact (wm 1 1 1 1) [demo_there] = Ok k' /\
  k_ndt k = Some g /\ k_ndt k' = Some g' /\ (g_sx g * g_sy g < 2 ^ 31)%Z /\ (g_sx g' * g_sy g' < 2 ^ 31)%Z /\
  match_scan 3 k probe pose0 mat3_zero = Ok (r, p', cov') /\ score_scan k probe = Ok (-1).
Proof.
  destruct (fine_search eig_exact pose0 mat3_zero eig_exact_contract) as (k & g & r & p' & cov' & H1 & H2 & H3 & _ & H5 & H6 & _).
  set (g0 := mkNdt 10 1 1 2 2 (repeat (@cell_new R RA) 1)).
  assert (Hnew : ndt_new 10 6 6 2 2 = Ok g0).
  { unfold ndt_new, cast_unsigned. ra.
    assert (E : Ztrunc (6 / 10 + 1) = 1%Z) by (rewrite Ztrunc_floor by lra; apply Zfloor_imp; cbn; lra). rewrite E. reflexivity. }
  assert (Hw : ndt_wf g0) by (apply (ndt_new_wf _ _ _ _ _ _ Hnew); reflexivity).
  destruct (ndt_run_defined eig_exact (map NAddScan [demo_there] ++ [NCompute]) g0 Hw) as (g' & Hg).
  { intros p Hp. rewrite history_points_moved in Hp. change (added_scans (map NAddScan [demo_there] ++ [NCompute])) with [demo_there] in Hp.
    unfold moved_points in Hp. cbn [flat_map demo_there s_pose s_pts square_points map app In] in Hp. unfold move in Hp. cbn [poth pox poy px py] in Hp. rewrite cos_0, sin_0 in Hp.
    destruct (ndt_covers 10 6 6 2 2 g0 p) as (i & Hi & _); try assumption; try lra; try reflexivity; [| |eauto];
      repeat (destruct Hp as [<-|Hp]; [cbn [px py]; lra|]); destruct Hp. }
  assert (Ba : add_scans eig_exact (wm 1 1 1 1) [demo_there] = Ok (with_ndt (wm 1 1 1 1) (Some g'))).
  { unfold add_scans. rewrite demo_box by (cbn; lra). cbn [b_minx b_maxx b_miny b_maxy]. cbn [demo_there s_pose pox poy wm k_range k_resolution]. ra.
    replace (5 + 3 - (5 - 3)) with 6 by ring. replace (5 - 3) with 2 by ring. rewrite Hnew. cbn [bind].
    unfold ndt_run in Hg. cbn [app map foldM ndt_step] in Hg. cbn [foldM].
    apply bind_ok in Hg. destruct Hg as (g1 & G1 & Hg). rewrite G1. cbn [bind] in Hg |- *. injection Hg as <-. reflexivity. }
  pose proof (ndt_run_geom eig_exact g0 g' _ Hg) as Hgeo.
  assert (Big : 100 < 2 ^ 1023) by (apply Rlt_le_trans with (2 ^ 7); [lra|apply Rle_pow; [lra|lia]]).
  exists k, (with_ndt (wm 1 1 1 1) (Some g')), g, g', r, p', cov'.
  split; [cbn; lra|]. split; [cbn; lra|].
  split; [unfold elsewhere, demo_scan, demo_there, shift_pose, five; cbn; replace (0 + 5) with 5 by ring; apply Permutation_refl|].
  split; [intros s p [<-|[]] Hp; cbn in Hp; repeat (destruct Hp as [<-|Hp]; [cbn; lra|]); destruct Hp|].
  split; [intros s [<-|[]]; cbn [demo_scan s_pose pox poy wm k_range]; lra|]. split; [intros s [<-|[]]; cbn [demo_there s_pose pox poy wm k_range]; lra|].
  split; [exact H1|]. split; [exact Ba|]. split; [exact H2|]. split; [reflexivity|]. split; [exact H3|].
  split; [destruct Hgeo as (_ & <- & <- & _); reflexivity|]. split; [exact H5|exact H6].
Qed.
