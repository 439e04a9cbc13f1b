(** C164: localization with particles does not depend on where the map lies. *)

From Coq Require Import ZArith Reals List Bool Lia Lra.
From Flocq Require Import Core.
From Verif Require Import Outcome Arith TypesModel ScanModel CellModel NdtModel MatcherModel KdModel MotionModel FilterModel NdtProofs RTactics SolverModel SolverProofs MatcherProofs OccProofs KdProofs FilterProofs FilterProofs2
  SpecFilter SpecShift SpecElsewhere PropShift MotionProofs.
Import ListNotations.
Local Open Scope R_scope.

Section Elsewhere.
Context (t : point R).

Lemma wsum_shift : forall g ps (ws : list R), wsum g (map (shift_particle t) ps) ws = wsum (fun p => g (shift_particle t p)) ps ws.
Proof. intros g ps. induction ps as [|p ps IH]; intros [|w ws]; cbn [map wsum]; try reflexivity. rewrite IH. reflexivity. Qed.

Lemma stats_shift : forall f f' r r', length (pf_wts f) = length (pf_parts f) -> total (pf_wts f) <> 0 ->
  pf_min f' = pf_min f -> pf_max f' = pf_max f -> pf_motion f' = pf_motion f -> pf_parts f' = map (shift_particle t) (pf_parts f) -> pf_wts f' = pf_wts f -> pf_cov f' = pf_cov f ->
  update_stats f = Ok r -> update_stats f' = Ok r' -> displaced t r r'.
Proof.
  intros f f' r r' L Tn E1 E2 E3 E4 E5 E6 U U'. unfold update_stats in U, U'. rewrite E5, E4, E6 in U'.
  apply bind_ok in U. destruct U as (pw & W & U). apply bind_ok in U'. destruct U' as (pw' & W' & U').
  change (fold_left nadd (pf_wts f) nzero) with (fold_left Rplus (pf_wts f) 0) in *. rewrite fold_total, Rplus_0_l in *.
  apply with_weights_inv in W. apply with_weights_inv in W'. destruct W as [-> _], W' as [-> _].
  change (fun w => ndiv w (total (pf_wts f))) with (fun w => w / total (pf_wts f)) in *.
  set (ws := map (fun w => w / total (pf_wts f)) (pf_wts f)) in *.
  assert (Lw : length (pf_parts f) = length ws) by (unfold ws; rewrite map_length; symmetry; exact L).
  assert (Tw : total ws = 1) by (unfold ws; rewrite total_scale; field; exact Tn).
  destruct (sums_spec (pf_parts f) ws sums0) as (H1 & H2 & H3 & H4 & H5 & H6 & H7).
  destruct (sums_spec (map (shift_particle t) (pf_parts f)) ws sums0) as (H1' & H2' & H3' & H4' & H5' & H6' & H7').
  cbv zeta in *. rewrite wsum_shift in H1', H2', H3', H4', H5', H6', H7'. cbn [shift_particle v0 v1 v2] in H1', H2', H3', H4', H5', H6', H7'.
  assert (S0 : wsum (fun p => v0 p + px t) (pf_parts f) ws = wsum v0 (pf_parts f) ws + px t).
  { rewrite (wsum_plus v0 (fun _ => px t)), wsum_const, Tw by exact Lw. ring. }
  assert (S1 : wsum (fun p => v1 p + py t) (pf_parts f) ws = wsum v1 (pf_parts f) ws + py t).
  { rewrite (wsum_plus v1 (fun _ => py t)), wsum_const, Tw by exact Lw. ring. }
  assert (S00 : forall (g h : vec3 R -> R) a b, wsum (fun p => (g p + a) * (h p + b)) (pf_parts f) ws =
     wsum (fun p => g p * h p) (pf_parts f) ws + b * wsum g (pf_parts f) ws + a * wsum h (pf_parts f) ws + a * b).
  { intros g h a b. rewrite (wsum_ext _ (fun p => (g p * h p + b * g p) + (a * h p + a * b))) by (intros p _; ring).
    rewrite !wsum_plus, !wsum_scal, wsum_const, Tw by exact Lw. ring. }
  rewrite S0 in H1'. rewrite S1 in H2'. rewrite S00 in H5', H6', H7'.
  set (s := fold_left (fun s q => sums_add s (fst q) (snd q)) (combine (pf_parts f) ws) sums0) in *.
  set (s' := fold_left (fun s q => sums_add s (fst q) (snd q)) (combine (map (shift_particle t) (pf_parts f)) ws) sums0) in *. clearbody s s'.
  injection U as <-. injection U' as <-. ra.
  unfold sums0, vec3_zero in *. ra_in H1; ra_in H2; ra_in H3; ra_in H4; ra_in H5; ra_in H6; ra_in H7. ra_in H1'; ra_in H2'; ra_in H3'; ra_in H4'; ra_in H5'; ra_in H6'; ra_in H7'.
  cbn [su_mean su_cos su_sin su_xx su_xy su_yy v0 v1 v2] in *. rewrite Rplus_0_l in *.
  unfold displaced. cbn [pf_min pf_max pf_motion pf_parts pf_wts pf_mean pf_cov]. rewrite E1, E2, E3. do 5 (split; [reflexivity|]).
  assert (Hm : Ratan2 (su_sin s') (su_cos s') = Ratan2 (su_sin s) (su_cos s)) by congruence.
  split.
  - unfold shift_particle. cbn [v0 v1 v2]. rewrite Hm. f_equal; lra.
  - rewrite Hm. rewrite !var_spec, wsum_shift. cbn [shift_particle v2]. f_equal; try (rewrite ?H1', ?H2', ?H5', ?H6', ?H7', ?H1, ?H2, ?H5, ?H6, ?H7; ring).
Qed.

(** ** Bins *)
Lemma floor_addz : forall x k, Zfloor (x + IZR k) = (Zfloor x + k)%Z.
Proof. intros x k. apply Zfloor_imp. rewrite !plus_IZR. pose proof (Zfloor_lb x). pose proof (Zfloor_ub x). lra. Qed.
Lemma trunc_shift : forall x k, same_side x (x + IZR k / 2) -> Ztrunc ((x + IZR k / 2) / (1 / 2)) = (Ztrunc (x / (1 / 2)) + k)%Z.
Proof.
  intros x k S. replace ((x + IZR k / 2) / (1 / 2)) with (x / (1 / 2) + IZR k) by field.
  assert (E : x + IZR k / 2 = (x / (1 / 2) + IZR k) / 2) by field. set (y := x / (1 / 2)) in *. assert (Ex : x = y / 2) by (unfold y; field).
  destruct S as [[A B]|[A B]].
  - rewrite !Ztrunc_floor by lra. rewrite floor_addz. reflexivity.
  - rewrite !Ztrunc_ceil by lra. unfold Zceil. replace (- (y + IZR k)) with (- y + IZR (- k)) by (rewrite opp_IZR; ring). rewrite floor_addz. lia.
Qed.
Definition shift_key (i j : Z) (k : vec3 Z) : vec3 Z := mkVec3 (v0 k + i)%Z (v1 k + j)%Z (v2 k).
Lemma distinct_shift : forall i j keys, distinct (map (shift_key i j) keys) = distinct keys.
Proof.
  intros i j keys. unfold distinct. induction keys as [|k keys IH]; [reflexivity|]. cbn [map nodup].
  destruct (in_dec bin_eq_dec k keys) as [I|N], (in_dec bin_eq_dec (shift_key i j k) (map (shift_key i j) keys)) as [I'|N'].
  - exact IH.
  - exfalso. apply N'. apply in_map. exact I.
  - exfalso. apply N. apply in_map_iff in I'. destruct I' as (q & Q & I'). destruct k as [a b c], q as [a' b' c']. unfold shift_key in Q. cbn in Q. injection Q as Q1 Q2 Q3.
    assert (a' = a) as -> by lia. assert (b' = b) as -> by lia. subst c'. exact I'.
  - cbn [length]. rewrite IH. reflexivity.
Qed.
Lemma key_is_bin : forall size (c : vec3 R) k, kd_key size c = Ok k -> k = bin_of size c.
Proof.
  intros size c k E. unfold kd_key in E. apply bind_ok in E. destruct E as (a & Ha & E). apply bind_ok in E. destruct E as (b & Hb & E).
  apply bind_ok in E. destruct E as (d & Hd & E). injection E as <-. apply cast_int32_inv in Ha, Hb, Hd. subst. reflexivity.
Qed.

Lemma loop_shift : forall (i j : Z), px t = IZR i / 2 -> py t = IZR j / 2 -> forall ps ws mn mx err z,
  (forall p, In p ps -> same_side (v0 p) (v0 p + px t) /\ same_side (v1 p) (v1 p + py t)) ->
  forall draws acc (tree tree' : @kd R) keys m r r', counts keys tree -> counts (map (shift_key i j) keys) tree' ->
  resample_loop draws ps ws mn mx err z acc tree m = Ok r ->
  resample_loop draws (map (shift_particle t) ps) ws mn mx err z (map (fun q => (shift_particle t (fst q), snd q)) acc) tree' m = Ok r' ->
  r' = map (fun q => (shift_particle t (fst q), snd q)) r.
Proof.
  intros i j Ei Ej ps ws mn mx err z Sd. induction draws as [|d draws IH]; intros acc tree tree' keys m r r' C C' H H'; cbn [resample_loop] in H, H'; rewrite ?map_length in H'.
  - destruct (_ <? _)%Z; [discriminate H|]. injection H as <-. injection H' as <-. reflexivity.
  - destruct (_ <? _)%Z; [|injection H as <-; injection H' as <-; reflexivity].
    apply bind_ok in H. destruct H as (p & P & H). apply bind_ok in H. destruct H as (w & W & H). apply bind_ok in H. destruct H as (tr & Tr & H).
    apply bind_ok in H'. destruct H' as (p' & P' & H'). rewrite W in H'. cbn [bind] in H'. apply bind_ok in H'. destruct H' as (tr' & Tr' & H').
    assert (p' = shift_particle t p /\ In p ps) as [-> Ip].
    { apply vec_get_nth in P. apply vec_get_nth in P'. destruct P as [_ P], P' as [_ P']. rewrite nth_error_map, P in P'. injection P' as <-.
      split; [reflexivity|]. apply nth_error_In in P. exact P. }
    assert (K : exists k, kd_key bin_size p = Ok k) by (unfold kd_add in Tr; apply bind_ok in Tr; destruct Tr as (k & Hk & _); exists k; exact Hk).
    assert (K' : exists k, kd_key bin_size (shift_particle t p) = Ok k) by (unfold kd_add in Tr'; apply bind_ok in Tr'; destruct Tr' as (k & Hk & _); exists k; exact Hk).
    destruct K as (k & K), K' as (k' & K').
    assert (Ek : k' = shift_key i j k).
    { rewrite (key_is_bin _ _ _ K), (key_is_bin _ _ _ K'). destruct (Sd p Ip) as [S0 S1]. unfold bin_of, shift_key, bin_size. unfold nlit. ra. cbn [v0 v1 v2 shift_particle].
      rewrite Ei in *. rewrite Ej in *. rewrite !trunc_shift by assumption. reflexivity. }
    pose proof (kd_add_counts half_exact_R _ _ _ _ _ _ _ C K Tr) as C1. pose proof (kd_add_counts half_exact_R _ _ _ _ _ _ _ C' K' Tr') as C1'.
    assert (Em : map (shift_key i j) keys ++ [k'] = map (shift_key i j) (keys ++ [k])) by (rewrite map_app, Ek; reflexivity). rewrite Em in C1'.
    assert (Ec : kd_leaf_count tr' = kd_leaf_count tr) by (rewrite (counts_distinct _ _ C1), (counts_distinct _ _ C1'), distinct_shift; reflexivity).
    rewrite Ec in H'. apply bind_ok in H. destruct H as (m1 & M & H). rewrite M in H'. cbn [bind] in H'.
    assert (Ea : map (fun q : vec3 R * R => (shift_particle t (fst q), snd q)) acc ++ [(shift_particle t p, w)] = map (fun q => (shift_particle t (fst q), snd q)) (acc ++ [(p, w)])) by (rewrite map_app; reflexivity).
    rewrite Ea in H'. rewrite map_length in H'. destruct (_ <=? _)%Z; [injection H as <-; injection H' as <-; reflexivity|].
    exact (IH (acc ++ [(p, w)]) tr tr' (keys ++ [k]) m1 r r' C1 C1' H H').
Qed.

(** ** Calls *)
Lemma map_i_ext2 : forall {X Y Z W : Type} (u : X -> Z) (v : Y -> W) (g : nat -> X -> Y) (h : nat -> Z -> W), (forall i x, h i (u x) = v (g i x)) ->
  forall l i, map_i h i (map u l) = map v (map_i g i l).
Proof. intros X Y Z W u v g h E l. induction l as [|x l IH]; intro i; cbn [map map_i]; [reflexivity|]. rewrite E, IH. reflexivity. Qed.

Lemma step_shift : forall f f' o o' r r', distribution f -> (1 <= pf_min f \/ 1 <= pf_max f)%Z -> op_ok f o -> displaced t f f' -> same_call t o o' -> aligned t f o ->
  filter_step f o = Ok r -> filter_step f' o' = Ok r' -> displaced t r r'.
Proof.
  intros f f' o o' r r' D Mm Ok_ (E1 & E2 & E3 & E4 & E5 & E6 & E7) Sc Al H H'.
  pose proof (distribution_nonempty f D) as Ne. destruct D as (L & Pos & Tot).
  destruct o as [n x y th sx sy sth|n dx dy dth|s|d e z], o' as [n' x' y' th' sx' sy' sth'|n' dx' dy' dth'|s'|d' e' z']; try contradiction Sc; cbn [filter_step] in H, H'.
  - destruct Sc as (-> & -> & -> & -> & -> & -> & N). unfold filter_init in H, H'. ra_in H; ra_in H'.
    set (ps := map_i (fun (i : nat) (_ : vec3 R) => mkVec3 (n (3 * i)%nat x sx) (n (3 * i + 1)%nat y sy) (normalize_angle (n (3 * i + 2)%nat th sth))) 0 (pf_parts f)) in *.
    assert (Ep : map_i (fun (i : nat) (_ : vec3 R) => mkVec3 (n' (3 * i)%nat (x + px t) sx) (n' (3 * i + 1)%nat (y + py t) sy) (normalize_angle (n' (3 * i + 2)%nat th sth))) 0 (pf_parts f') = map (shift_particle t) ps).
    { unfold ps. rewrite E4. apply map_i_ext2. intros i q. unfold shift_particle. cbn [v0 v1 v2]. destruct (N i) as (N0 & N1 & N2). rewrite N0, N1, N2. reflexivity. }
    rewrite Ep, map_length in H'. assert (Lp : length ps = length (pf_parts f)) by (unfold ps; apply map_i_len).
    assert (Np : (0 < length ps)%nat) by (rewrite Lp; destruct (pf_parts f); [contradiction Ne; reflexivity|cbn; lia]).
    eapply stats_shift; [| | | | | | | |exact H|exact H']; cbn [with_parts pf_min pf_max pf_motion pf_parts pf_wts pf_cov]; try assumption; try reflexivity.
    + rewrite repeat_length. reflexivity.
    + rewrite uniform_total by exact Np. lra.
  - destruct Sc as (-> & -> & -> & ->). unfold filter_update in H, H'. rewrite E3, E4, E5 in H'.
    set (ps := motion_sample n (pf_motion f) dx dy dth (pf_parts f)) in *.
    assert (Ep : motion_sample n (pf_motion f) dx dy dth (map (shift_particle t) (pf_parts f)) = map (shift_particle t) ps).
    { unfold ps, motion_sample. apply map_i_ext2. intros i q. unfold sample_one. destruct (motion_mean dx dy dth) as [[a b] c]. destruct (motion_sigmas (pf_motion f) dx dy dth) as [[u v] w].
      unfold shift_particle. cbn [v0 v1 v2]. ra. f_equal; ring. }
    rewrite Ep in H'. assert (Lp : length ps = length (pf_parts f)) by (unfold ps; apply map_i_len).
    eapply stats_shift; [| | | | | | | |exact H|exact H']; cbn [with_parts pf_min pf_max pf_motion pf_parts pf_wts pf_cov]; try assumption; try reflexivity.
    + rewrite Lp. exact L.
    + rewrite Tot. lra.
  - unfold filter_measure in H, H'. rewrite E4, E5, map_length in H'. rewrite L, Nat.ltb_irrefl in H, H'.
    assert (Ms : mapM (fun p : vec3 R => s' (mkPose (v0 p) (v1 p) (v2 p))) (map (shift_particle t) (pf_parts f)) = mapM (fun p : vec3 R => s (mkPose (v0 p) (v1 p) (v2 p))) (pf_parts f)).
    { generalize (pf_parts f) as l. induction l as [|p l IH]; [reflexivity|]. cbn [map mapM]. rewrite IH. cbn [shift_particle v0 v1 v2].
      change (mkPose (v0 p + px t) (v1 p + py t) (v2 p)) with (shift_pose t (mkPose (v0 p) (v1 p) (v2 p))). rewrite Sc. reflexivity. }
    rewrite Ms in H'. apply bind_ok in H. destruct H as (ws & W & H). rewrite W in H'. cbn [bind] in H'.
    assert (Lw : length ws = length (pf_parts f)) by (apply mapM_length in W; exact W).
    assert (Sk : skipn (length (pf_parts f)) (pf_wts f) = []) by (apply skipn_all2; lia). rewrite Sk, app_nil_r in *.
    assert (Tn : total ws <> 0).
    { destruct Ok_ as (Neg & p & sc & Ip & Sp & Nz). assert (Tl : total ws < 0); [|lra]. apply total_neg.
      - clear H H' Lw. revert ws W. clear - Neg. revert Neg. generalize (pf_parts f) as l. induction l as [|q l IH]; intros Neg ws W; cbn [mapM] in W; [injection W as <-; constructor|].
        apply bind_ok in W. destruct W as (a & Ha & W). apply bind_ok in W. destruct W as (b & Hb & W). injection W as <-. constructor.
        + exact (Neg q a (or_introl eq_refl) Ha).
        + apply IH; [|exact Hb]. intros q' s0 I. apply Neg. right. exact I.
      - clear H H' Lw. revert ws W. clear - Ip Sp Nz. revert Ip. generalize (pf_parts f) as l. induction l as [|q l IH]; intros Ip ws W; [destruct Ip|]. cbn [mapM] in W.
        apply bind_ok in W. destruct W as (a & Ha & W). apply bind_ok in W. destruct W as (b & Hb & W). injection W as <-.
        destruct Ip as [->|Ip]; [left; unfold pose_of in Sp; rewrite Sp in Ha; injection Ha as <-; exact Nz|right; exact (IH Ip b Hb)]. }
    eapply stats_shift; [| | | | | | | |exact H|exact H']; cbn [with_parts pf_min pf_max pf_motion pf_parts pf_wts pf_cov]; try assumption; try reflexivity.
  - destruct Sc as (-> & -> & ->). destruct Al as ((i & j & Ei & Ej) & Sd). unfold filter_resample in H, H'. rewrite E1, E2, E4, E5 in H'.
    destruct (dist_ok (pf_wts f)) eqn:Dk; [|discriminate H]. apply bind_ok in H. destruct H as (acc & La & H). apply bind_ok in H'. destruct H' as (acc' & La' & H').
    assert (Ea : acc' = map (fun q => (shift_particle t (fst q), snd q)) acc).
    { apply (loop_shift i j Ei Ej (pf_parts f) (pf_wts f) (pf_min f) (pf_max f) e z Sd d [] kd_empty kd_empty [] (pf_max f)); try assumption; split; reflexivity. }
    rewrite Ea, !map_map in H'. cbn [fst snd] in H'.
    assert (D : distribution f) by (split; [exact L|split; assumption]).
    assert (Dr : distribution r).
    { apply (filter_step_ok f (FResample d e z) r D Mm Ok_). cbn [filter_step]. unfold filter_resample. rewrite Dk, La. exact H. }
    eapply stats_shift; [| | | | | | | |exact H|exact H']; cbn [with_parts pf_min pf_max pf_motion pf_parts pf_wts pf_cov]; try assumption; try reflexivity.
    + rewrite !map_length. reflexivity.
    + intro Z0. unfold update_stats in H. cbn [with_parts pf_wts pf_parts] in H. change (fold_left nadd (map snd acc) nzero) with (fold_left Rplus (map snd acc) 0) in H.
      rewrite fold_total, Rplus_0_l in H. apply bind_ok in H. destruct H as (pw & _ & H). injection H as Er. destruct Dr as (_ & _ & Dr). rewrite <- Er in Dr. cbn [pf_wts] in Dr.
      change (fun w => ndiv w (total (map snd acc))) with (fun w => w / total (map snd acc)) in Dr. rewrite total_scale, Z0 in Dr. unfold Rdiv in Dr. rewrite Rmult_0_l in Dr. lra.
    + rewrite map_map. reflexivity.
Qed.
End Elsewhere.

(** Every history of calls, in both frames. *)
Theorem C164_filter_elsewhere_partial : forall (t : point R) ops ops' f f' r r', distribution f -> (1 <= pf_min f \/ 1 <= pf_max f)%Z -> ops_ok f ops ->
  displaced t f f' -> Forall2 (same_call t) ops ops' -> always_aligned t f ops ->
  filter_run f ops = Ok r -> filter_run f' ops' = Ok r' -> displaced t r r'.
Proof.
  intros t ops ops' f f' r r' D M O Ds F. revert f f' r r' D M O Ds. induction F as [|o o' ops ops' So F IH]; intros f f' r r' D M O Ds Al H H'.
  - cbn in H, H'. injection H as <-. injection H' as <-. exact Ds.
  - unfold filter_run in H, H'. cbn [foldM] in H, H'. apply bind_ok in H. destruct H as (f1 & S & H). apply bind_ok in H'. destruct H' as (f1' & S' & H').
    destruct O as [O1 O2]. destruct Al as [A1 A2]. destruct (filter_step_ok f o f1 D M O1 S) as (D1 & _ & Mn & Mx).
    apply (IH f1 f1' r r'); [exact D1|rewrite Mn, Mx; exact M|exact (O2 f1 S)| |exact (A2 f1 S)|exact H|exact H'].
    exact (step_shift t f f' o o' f1 f1' D M O1 Ds So A1 S S').
Qed.
Print Assumptions C164_filter_elsewhere_partial.

(** Scoring against a map of the same scans in the other frame is the same call. *)
Theorem C164_measure_elsewhere : forall (eig : mat2 R -> R * R) (t : point R) (m k k' : matcher R) (g g' : ndt R) (scans scans' : list (scan R)),
  0 < k_resolution m -> 0 <= k_range m -> scans <> [] -> elsewhere t scans scans' ->
  in_range (k_range m) scans -> fits (k_range m) scans -> fits (k_range m) scans' ->
  add_scans eig m scans = Ok k -> add_scans eig m scans' = Ok k' -> k_ndt k = Some g -> k_ndt k' = Some g' ->
  (g_sx g * g_sy g < 2 ^ 31)%Z -> (g_sx g' * g_sy g' < 2 ^ 31)%Z ->
  forall pts, same_call t (FMeasure (score_points k pts)) (FMeasure (score_points k' pts)).
Proof.
  intros eig t m k k' g g' scans scans' H1 H2 H3 H4 H5 H6 H7 H8 H9 H10 H11 H12 H13 pts q.
  exact (proj2 (C158_matching_elsewhere eig t m k k' g g' scans scans' H1 H2 H3 H4 H5 H6 H7 H8 H9 H10 H11 H12 H13) pts q).
Qed.
Print Assumptions C164_measure_elsewhere.

(** Two particles 0.8 m apart, min_particles 2, max_particles 4. *)
Definition pair_cloud (x : R) : pfilter R :=
  mkFilter 2 4 (mkMotion 0 0 0 0 0) [mkVec3 (x - 2 / 5) 0 0; mkVec3 (x + 2 / 5) 0 0] [1 / 2; 1 / 2] (mkVec3 x 0 0) (mkMat3 0 0 0 0 0 0 0 0 0).
Definition pair_call : filter_op R := FResample [0; 1; 0; 1]%Z 1 0.
Lemma pair_distribution : forall x, distribution (pair_cloud x).
Proof. intro x. split; [reflexivity|]. split; [repeat constructor; lra|]. unfold total. cbn. lra. Qed.
Lemma pair_op_ok : forall x, op_ok (pair_cloud x) pair_call.
Proof. intro x. repeat constructor; exists (1 / 2); (split; [reflexivity|lra]). Qed.
Lemma pair_displaced : forall x d, displaced (mkPoint d 0) (pair_cloud x) (pair_cloud (x + d)).
Proof.
  intros x d. unfold displaced, pair_cloud, shift_particle. cbn [pf_min pf_max pf_motion pf_parts pf_wts pf_mean pf_cov map v0 v1 v2 px py].
  do 3 (split; [reflexivity|]). split; [f_equal; [f_equal; ring|f_equal; f_equal; ring]|]. split; [reflexivity|]. split; [f_equal; ring|reflexivity].
Qed.
Lemma pair_key : forall x k, (if Rle_bool 0 x then IZR k <= x / (1 / 2) < IZR k + 1 else IZR k - 1 < x / (1 / 2) <= IZR k) -> (- 1000 < k < 1000)%Z -> kd_key bin_size (mkVec3 x 0 0) = Ok (mkVec3 k 0%Z 0%Z).
Proof.
  intros x k H B. unfold kd_key, bin_size, nlit. ra. cbn [v0 v1 v2].
  assert (E : forall y z, Ztrunc y = z -> (- 1000 < z < 1000)%Z -> cast_int32 y = Ok z).
  { intros y z Ey Bz. unfold cast_int32. cbn [ntrunc RA]. rewrite Ey. destruct (Z.leb_spec (- 2 ^ 31) z); [|lia]. destruct (Z.ltb_spec z (2 ^ 31)); [|lia]. reflexivity. }
  rewrite (E (x / (1 / 2)) k); [|destruct (Rle_bool_spec 0 x) as [G|G]|exact B].
  - cbn [bind]. rewrite (E (0 / (1 / 2)) 0%Z); [|replace (0 / (1 / 2)) with (IZR 0) by (cbn; field); apply Ztrunc_IZR|lia]. cbn [bind].
    rewrite (E _ 0%Z); [reflexivity| |lia]. unfold Rdiv at 1. rewrite Rmult_0_l. apply (Ztrunc_IZR 0).
  - rewrite Ztrunc_floor by (apply Rmult_le_pos; lra). apply Zfloor_imp. rewrite plus_IZR. exact H.
  - rewrite Ztrunc_ceil by lra. unfold Zceil. rewrite (Zfloor_imp (- k)); [lia|]. rewrite plus_IZR, opp_IZR. lra.
Qed.
Lemma kld_two : kld_bound 1 0 2 = Ok 0%Z.
Proof.
  unfold kld_bound. ra. change (Z.of_nat 2 - 1)%Z with 1%Z. rewrite Rmult_0_r, Rplus_0_r.
  assert (E : 1 / (2 * 1) * (1 - 2 / (9 * 1)) * (1 - 2 / (9 * 1)) * (1 - 2 / (9 * 1)) = 343 / 1458) by field. rewrite E.
  unfold cast_unsigned. cbn [ntrunc RA]. rewrite Ztrunc_floor by lra. rewrite (Zfloor_imp 0) by (cbn; lra). reflexivity.
Qed.
Lemma pair_step : forall (i : Z) draws ps ws mn mx err z acc (tree tree' : kd (T := R)) m p w m', (Z.of_nat (length acc) < Z.max mn m)%Z ->
  vec_get ps i = Ok p -> vec_get ws i = Ok w -> kd_add bin_size tree p w = Ok tree' ->
  (if (1 <? kd_leaf_count tree')%nat then kld_bound err z (kd_leaf_count tree') else Ok m) = Ok m' ->
  resample_loop (i :: draws) ps ws mn mx err z acc tree m =
  if (mx <=? Z.of_nat (length (acc ++ [(p, w)])))%Z then Ok (acc ++ [(p, w)]) else resample_loop draws ps ws mn mx err z (acc ++ [(p, w)]) tree' m'.
Proof.
  intros i draws ps ws mn mx err z acc tree tree' m p w m' L Gp Gw K B. cbn [resample_loop]. destruct (Z.ltb_spec (Z.of_nat (length acc)) (Z.max mn m)); [|lia].
  rewrite Gp. cbn [bind]. rewrite Gw. cbn [bind]. rewrite K. cbn [bind]. rewrite B. cbn [bind]. reflexivity.
Qed.
Lemma pair_one_bin : forall p q : vec3 R, kd_key bin_size p = Ok (mkVec3 0%Z 0%Z 0%Z) -> kd_key bin_size q = Ok (mkVec3 0%Z 0%Z 0%Z) ->
  exists acc, resample_loop [0; 1; 0; 1]%Z [p; q] [1 / 2; 1 / 2] 2 4 1 0 [] kd_empty 4 = Ok acc /\ length acc = 4%nat.
Proof.
  intros p q Kp Kq. set (k := mkVec3 0%Z 0%Z 0%Z) in *.
  assert (K0 : forall w : R, kd_add bin_size kd_empty p w = Ok (Some (KLeaf k w), 1%nat)) by (intro w; unfold kd_add; rewrite Kp; reflexivity).
  assert (K1 : forall v w : R, kd_add bin_size (Some (KLeaf k v), 1%nat) p w = Ok (Some (KLeaf k (v + w)), 1%nat)) by (intros v w; unfold kd_add; rewrite Kp; reflexivity).
  assert (K2 : forall v w : R, kd_add bin_size (Some (KLeaf k v), 1%nat) q w = Ok (Some (KLeaf k (v + w)), 1%nat)) by (intros v w; unfold kd_add; rewrite Kq; reflexivity).
  erewrite pair_step; [|cbn; lia|reflexivity|reflexivity|apply K0|reflexivity]. cbn [app length Z.of_nat Pos.of_succ_nat Z.leb Z.compare Pos.compare Pos.compare_cont Pos.succ].
  erewrite pair_step; [|cbn; lia|reflexivity|reflexivity|apply K2|reflexivity]. cbn [app length Z.of_nat Pos.of_succ_nat Z.leb Z.compare Pos.compare Pos.compare_cont Pos.succ].
  erewrite pair_step; [|cbn; lia|reflexivity|reflexivity|apply K1|reflexivity]. cbn [app length Z.of_nat Pos.of_succ_nat Z.leb Z.compare Pos.compare Pos.compare_cont Pos.succ].
  erewrite pair_step; [|cbn; lia|reflexivity|reflexivity|apply K2|reflexivity]. cbn [app length Z.of_nat Pos.of_succ_nat Z.leb Z.compare Pos.compare Pos.compare_cont Pos.succ].
  eexists. split; reflexivity.
Qed.
Lemma pair_two_bins : forall (p q : vec3 R) (a : Z), (- 1000 < a < 1000)%Z -> kd_key bin_size p = Ok (mkVec3 a 0%Z 0%Z) -> kd_key bin_size q = Ok (mkVec3 (a + 1)%Z 0%Z 0%Z) ->
  exists acc, resample_loop [0; 1; 0; 1]%Z [p; q] [1 / 2; 1 / 2] 2 4 1 0 [] kd_empty 4 = Ok acc /\ length acc = 2%nat.
Proof.
  intros p q a Ba Kp Kq.
  assert (K0 : forall w : R, kd_add bin_size kd_empty p w = Ok (Some (KLeaf (mkVec3 a 0%Z 0%Z) w), 1%nat)) by (intro w; unfold kd_add; rewrite Kp; reflexivity).
  assert (K1 : forall v w : R, exists tr, kd_add bin_size (Some (KLeaf (mkVec3 a 0%Z 0%Z) v), 1%nat) q w = Ok (Some tr, 2%nat)).
  { intros v w. eexists. unfold kd_add. rewrite Kq. cbn [bind fst snd kd_insert]. unfold key_eqb. cbn [v0 v1 v2].
    destruct (Z.eqb_spec a (a + 1)); [lia|]. cbn [andb].
    assert (C : forall z, (- 10000 < z < 10000)%Z -> check_int z = Ok z).
    { intros z Bz. unfold check_int, fits_int. destruct (Z.leb_spec (- 2 ^ 31) z); [|lia]. destruct (Z.ltb_spec z (2 ^ 31)); [|lia]. reflexivity. }
    replace (a - (a + 1))%Z with (-1)%Z by lia. rewrite !C by lia. cbn [bind].
    assert (P : pick_axis (mkVec3 a 0%Z 0%Z) (mkVec3 (a + 1)%Z 0%Z 0%Z) = Some 0%nat).
    { unfold pick_axis. cbn [kget v0 v1 v2]. replace (a - (a + 1))%Z with (-1)%Z by lia. reflexivity. }
    rewrite P. cbn [kget v0]. rewrite C by lia. cbn [bind]. reflexivity. }
  destruct (K1 (1 / 2) (1 / 2)) as (tr & K1').
  erewrite pair_step; [|cbn; lia|reflexivity|reflexivity|apply K0|reflexivity]. cbn [app length Z.of_nat Pos.of_succ_nat Z.leb Z.compare Pos.compare Pos.compare_cont Pos.succ].
  erewrite pair_step; [|cbn; lia|reflexivity|reflexivity|exact K1'|exact kld_two]. cbn [app length Z.of_nat Pos.of_succ_nat Z.leb Z.compare Pos.compare Pos.compare_cont Pos.succ].
  eexists. split; [cbn; reflexivity|reflexivity].
Qed.
Lemma pair_resampled : forall x n, (exists acc, resample_loop [0; 1; 0; 1]%Z (pf_parts (pair_cloud x)) [1 / 2; 1 / 2] 2 4 1 0 [] kd_empty 4 = Ok acc /\ length acc = n) ->
  exists r, filter_step (pair_cloud x) pair_call = Ok r /\ length (pf_parts r) = n.
Proof.
  intros x n (acc & E & L). destruct (update_stats_total R RA (with_parts (pair_cloud x) (map fst acc) (map snd acc))) as (r & S).
  { cbn. rewrite !map_length. lia. }
  exists r. split.
  - cbn [filter_step pair_call]. unfold filter_resample. assert (D : dist_ok (pf_wts (pair_cloud x)) = true).
    { unfold dist_ok, total. cbn. ra. destruct (Rle_bool_spec 0 (1 / 2)); [|lra]. cbn. ra. repeat match goal with |- context [Rlt_bool ?a ?b] => destruct (Rlt_bool_spec a b) end; try reflexivity; lra. }
    rewrite D. unfold pair_cloud in E |- * at 1 2 3 4 5. cbn [pf_parts pf_wts pf_min pf_max] in E |- *. rewrite E. cbn [bind]. exact S.
  - destruct (MotionProofs.update_stats_parts _ _ _ _ S) as [P _]. rewrite P. cbn. rewrite map_length. exact L.
Qed.

(** Near the origin the bins of the KD-tree are not all alike. *)
Theorem C164_filter_elsewhere_refuted : exists (t : point R) (f f' : pfilter R) (o : filter_op R) (r r' : pfilter R),
  distribution f /\ (1 <= pf_min f)%Z /\ op_ok f o /\ displaced t f f' /\ same_call t o o /\ t = mkPoint 1 0 /\
  filter_step f o = Ok r /\ filter_step f' o = Ok r' /\ length (pf_parts r) = 4%nat /\ length (pf_parts r') = 2%nat.
Proof.
  destruct (pair_resampled 0 4) as (r & S & L).
  { apply pair_one_bin; apply pair_key; try lia; destruct (Rle_bool_spec 0 (0 - 2 / 5)); destruct (Rle_bool_spec 0 (0 + 2 / 5)); cbn; lra. }
  destruct (pair_resampled (0 + 1) 2) as (r' & S' & L').
  { apply (pair_two_bins _ _ 1 ltac:(lia)); apply pair_key; try lia; destruct (Rle_bool_spec 0 (0 + 1 - 2 / 5)); destruct (Rle_bool_spec 0 (0 + 1 + 2 / 5)); cbn; lra. }
  exists (mkPoint 1 0), (pair_cloud 0), (pair_cloud (0 + 1)), pair_call, r, r'.
  split; [apply pair_distribution|]. split; [cbn; lia|]. split; [apply pair_op_ok|]. split; [apply pair_displaced|]. split; [repeat split|].
  split; [reflexivity|]. auto.
Qed.
Print Assumptions C164_filter_elsewhere_refuted.

(** The hypotheses of the history theorem hold of a move, a measurement and a
    resampling away from the origin. *)
Example C164_nonvacuous : exists (t : point R) (f f' : pfilter R) (ops : list (filter_op R)) (r r' : pfilter R),
  t <> mkPoint 0 0 /\ distribution f /\ ops_ok f ops /\ displaced t f f' /\ Forall2 (same_call t) ops ops /\ always_aligned t f ops /\
  filter_run f ops = Ok r /\ filter_run f' ops = Ok r' /\ displaced t r r' /\ length (pf_parts r) = 2%nat.
Proof.
  destruct (pair_resampled 1 2) as (r & S & L).
  { apply (pair_two_bins _ _ 1 ltac:(lia)); apply pair_key; try lia; destruct (Rle_bool_spec 0 (1 - 2 / 5)); destruct (Rle_bool_spec 0 (1 + 2 / 5)); cbn; lra. }
  destruct (pair_resampled (1 + 1) 2) as (r' & S' & L').
  { apply (pair_two_bins _ _ 3 ltac:(lia)); apply pair_key; try lia; destruct (Rle_bool_spec 0 (1 + 1 - 2 / 5)); destruct (Rle_bool_spec 0 (1 + 1 + 2 / 5)); cbn; lra. }
  assert (Al : always_aligned (mkPoint 1 0) (pair_cloud 1) [pair_call]).
  { split; [|intros; exact I]. split; [exists 2%Z, 0%Z; cbn; lra|].
    intros p [<-|[<-|[]]]; unfold same_side; cbn; lra. }
  exists (mkPoint 1 0), (pair_cloud 1), (pair_cloud (1 + 1)), [pair_call], r, r'.
  split; [intro C; injection C; lra|]. split; [apply pair_distribution|].
  assert (O : ops_ok (pair_cloud 1) [pair_call]) by (split; [apply pair_op_ok|intros; exact I]).
  split; [exact O|]. split; [apply pair_displaced|]. assert (F : Forall2 (same_call (mkPoint 1 0)) [pair_call] [pair_call]) by (repeat constructor).
  split; [exact F|]. split; [exact Al|].
  assert (R1 : filter_run (pair_cloud 1) [pair_call] = Ok r) by (unfold filter_run; cbn [foldM]; rewrite S; reflexivity).
  assert (R2 : filter_run (pair_cloud (1 + 1)) [pair_call] = Ok r') by (unfold filter_run; cbn [foldM]; rewrite S'; reflexivity).
  split; [exact R1|]. split; [exact R2|]. split; [|exact L].
  exact (C164_filter_elsewhere_partial _ _ _ _ _ _ _ (pair_distribution 1) (or_introl (ltac:(cbn; lia) : (1 <= pf_min (pair_cloud 1))%Z)) O (pair_displaced 1 1) F Al R1 R2).
Qed.
