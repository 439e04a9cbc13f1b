(** Particle filter histories, exact arithmetic. *)

From Coq Require Import ZArith Reals List Bool Lra Lia Psatz.
From Flocq Require Import Core.
From Verif Require Import Outcome Arith TypesModel SpecPose RTactics ConstraintProofs NdtProofs OccProofs KdModel MotionModel FilterModel SpecFilter AngleProofs KdProofs MotionProofs FilterProofs MatcherProofs MatcherB64.
Import ListNotations.
Local Open Scope R_scope.

Lemma distribution_nonempty : forall f, distribution f -> pf_parts f <> [].
Proof.
  intros f (L & _ & T) E. rewrite E in L. destruct (pf_wts f); [|discriminate]. unfold total in T. simpl in T. lra.
Qed.

(** What every statistics update guarantees. *)
Definition stats_after (f f' : pfilter R) : Prop :=
  weighted_stats f' /\ (forall u v, 0 <= u * u * a00 (pf_cov f') + 2 * u * v * a01 (pf_cov f') + v * v * a11 (pf_cov f')) /\
  exists v, heading_variance (pf_parts f') (pf_wts f') (v2 (pf_mean f')) v /\ 0 <= v /\ a22 (pf_cov f') = a22 (pf_cov f) + v.

Lemma stats_scaled : forall (f f' : pfilter R), update_stats f = Ok f' ->
  length (pf_wts f) = length (pf_parts f) -> total (pf_wts f) <> 0 ->
  Forall (fun w => 0 <= w / total (pf_wts f)) (pf_wts f) ->
  distribution f' /\ stats_after f f'.
Proof.
  intros f f' H L T P. destruct (update_stats_R f f' H L T) as (E & L' & T' & S & v & Hv & Ev).
  assert (F : Forall (fun w => 0 <= w) (pf_wts f')).
  { rewrite E. rewrite Forall_forall in *. intros w Hw. apply in_map_iff in Hw. destruct Hw as (w0 & <- & Hw). apply P. exact Hw. }
  split; [split; [exact L'|split; [exact F|exact T']]|].
  split; [exact S|]. split; [intros a b; apply weighted_psd; assumption|].
  exists v. split; [exact Hv|]. split; [|exact Ev].
  destruct Hv as (d & _ & ->). apply wsum_nonneg; [|exact F]. intros. apply Rle_0_sqr.
Qed.

Lemma positive_total : forall ws, Forall (fun w => 0 <= w) ws -> 0 < total ws -> Forall (fun w => 0 <= w / total ws) ws.
Proof.
  intros ws F T. rewrite Forall_forall in *. intros w Hw. specialize (F w Hw).
  apply Rmult_le_pos; [exact F|]. left. apply Rinv_0_lt_compat. exact T.
Qed.

Lemma uniform_total : forall n, (0 < n)%nat -> total (repeat (1 / IZR (Z.of_nat n)) n) = 1.
Proof.
  intros n H. rewrite total_repeat, <- INR_IZR_INZ. field. apply not_0_INR. lia.
Qed.

Lemma uniform_ok : forall f f' n, (0 < n)%nat -> update_stats f = Ok f' -> length (pf_parts f) = n ->
  pf_wts f = repeat (1 / IZR (Z.of_nat n)) n -> distribution f' /\ stats_after f f'.
Proof.
  intros f f' n Hn H L W. apply stats_scaled; [exact H| | |].
  - rewrite W, repeat_length. symmetry. exact L.
  - rewrite W, uniform_total by exact Hn. lra.
  - apply positive_total.
    + rewrite W. rewrite Forall_forall. intros w Hw. apply repeat_spec in Hw. subst w.
      apply Rmult_le_pos; [lra|]. left. apply Rinv_0_lt_compat. apply IZR_lt. lia.
    + rewrite W, uniform_total by exact Hn. lra.
Qed.

Lemma filter_new_ok : forall mn mx m f, (1 <= mn)%Z -> filter_new mn mx m = Ok f ->
  distribution f /\ weighted_stats f /\
  heading_variance (pf_parts f) (pf_wts f) (v2 (pf_mean f)) (a22 (pf_cov f)).
Proof.
  intros mn mx m f M H. unfold filter_new in H.
  apply (fun H L W => uniform_ok _ _ (Z.to_nat mn) (proj1 (Z2Nat.inj_lt 0 mn (Z.le_refl 0) (Z.le_trans _ _ _ Z.le_0_1 M)) (Z.lt_le_trans _ _ _ Z.lt_0_1 M)) H L W) in H.
  - destruct H as (D & S & _ & v & Hv & _ & E). split; [exact D|]. split; [exact S|].
    rewrite E. unfold mat3_zero. ra. cbn [pf_cov a22]. rewrite Rplus_0_l. exact Hv.
  - cbn. apply repeat_length.
  - cbn [pf_wts]. ra. rewrite Z2Nat.id by lia. reflexivity.
Qed.

Lemma map_i_len : forall (X Y : Type) (g : nat -> X -> Y) l i, length (map_i g i l) = length l.
Proof. exact map_i_length. Qed.

Theorem filter_step_ok : forall f o f', distribution f -> (1 <= pf_min f \/ 1 <= pf_max f)%Z -> op_ok f o -> filter_step f o = Ok f' ->
  distribution f' /\ stats_after f f' /\ pf_min f' = pf_min f /\ pf_max f' = pf_max f.
Proof.
  intros f o f' D M O E. pose proof (distribution_nonempty f D) as NE.
  destruct D as (L & F & T).
  assert (NZ : (0 < length (pf_parts f))%nat) by (destruct (pf_parts f); [contradiction|simpl; lia]).
  destruct o as [n x y th sx sy sth|n dx dy dth|s|d e z]; simpl in E, O.
  - unfold filter_init in E. pose proof (update_stats_parts _ _ _ _ E) as (_ & E1 & E2 & _).
    apply (uniform_ok _ _ (length (pf_parts f)) NZ) in E.
    + destruct E as (D' & S'). split; [exact D'|]. split; [exact S'|]. split; assumption.
    + cbn [with_parts pf_parts]. apply map_i_length.
    + cbn [with_parts pf_wts]. rewrite map_i_length. ra. reflexivity.
  - unfold filter_update in E. pose proof (update_stats_parts _ _ _ _ E) as (_ & E1 & E2 & _).
    apply stats_scaled in E.
    + destruct E as (D' & S'). split; [exact D'|]. split; [exact S'|]. split; assumption.
    + cbn [with_parts pf_parts pf_wts]. rewrite motion_length. exact L.
    + cbn [with_parts pf_wts]. lra.
    + cbn [with_parts pf_wts]. apply positive_total; [exact F|lra].
  - unfold filter_measure in E. destruct (_ <? _)%nat; [discriminate|].
    apply bind_ok in E. destruct E as (ws & Hw & E).
    assert (Lw : length ws = length (pf_parts f)) by (apply mapM_length in Hw; exact Hw).
    pose proof (update_stats_parts _ _ _ _ E) as (_ & E1 & E2 & _).
    rewrite <- L, skipn_all, app_nil_r in E.
    assert (G : Forall2 (fun p w => s (mkPose (v0 p) (v1 p) (v2 p)) = Ok w) (pf_parts f) ws) by (apply mapM_Forall2; exact Hw).
    destruct O as (O1 & p & sc & Hp & Hs & Hz).
    assert (N : Forall (fun w => w <= 0) ws).
    { clear - G O1. revert O1. induction G as [|q w ps ws Hq G IH]; intro O1; constructor.
      - apply (O1 q); [left; reflexivity|exact Hq].
      - apply IH. intros; eapply O1; [right|]; eassumption. }
    assert (X : Exists (fun w => w <> 0) ws).
    { clear - G Hp Hs Hz. induction G as [|q w ps ws Hq G IH]; [destruct Hp|].
      destruct Hp as [->|Hp]; [left; unfold pose_of in Hs; congruence|right; apply IH; exact Hp]. }
    destruct (total_neg ws N) as (_ & T'). specialize (T' X).
    apply stats_scaled in E; cbn [with_parts pf_parts pf_wts] in *.
    + destruct E as (D' & S'). split; [exact D'|]. split; [exact S'|]. split; assumption.
    + exact Lw.
    + lra.
    + rewrite Forall_forall in *. intros w Hin. specialize (N w Hin).
      replace (w / total ws) with ((- w) * / (- total ws)) by (field; lra).
      apply Rmult_le_pos; [lra|]. left. apply Rinv_0_lt_compat. lra.
  - unfold filter_resample in E. destruct (dist_ok _); [|discriminate].
    apply bind_ok in E. destruct E as (acc & Ha & E).
    pose proof (update_stats_parts _ _ _ _ E) as (_ & E1 & E2 & _).
    assert (P : Forall (fun q => 0 < snd q) acc).
    { destruct (resample_loop_draws _ _ _ _ _ _ _ _ _ _ _ Ha) as (k & new & Hk & -> & G). cbn [app].
      assert (O' : Forall (fun i => exists w, vec_get (pf_wts f) i = Ok w /\ 0 < w) (firstn k d)).
      { rewrite Forall_forall in *. intros i Hi. apply O. rewrite <- (firstn_skipn k d). apply in_or_app. left. exact Hi. }
      clear - G O'. induction G as [|i q is qs (H1 & H2) G IH]; constructor.
      - inversion O' as [|? ? (w & Hw & Pw) _]; subst. assert (snd q = w) by congruence. lra.
      - apply IH. inversion O'; assumption. }
    assert (NA : acc <> []).
    { intro C. subst acc. destruct d as [|i d]; simpl in Ha.
      - destruct (Z.ltb_spec 0 (Z.max (pf_min f) (pf_max f))); [discriminate|lia].
      - destruct (Z.ltb_spec 0 (Z.max (pf_min f) (pf_max f))); [|lia].
        apply bind_ok in Ha. destruct Ha as (p & Hp & Ha). apply bind_ok in Ha. destruct Ha as (w & Hw & Ha).
        apply bind_ok in Ha. destruct Ha as (t' & _ & Ha). apply bind_ok in Ha. destruct Ha as (m' & _ & Ha).
        destruct (_ <=? _)%Z; [discriminate|].
        destruct (resample_loop_draws _ _ _ _ _ _ _ _ _ _ _ Ha) as (k & new & _ & C & _). discriminate. }
    assert (T' : 0 < total (map snd acc)).
    { apply total_pos; [destruct acc; [contradiction|discriminate]|]. rewrite Forall_map. exact P. }
    apply stats_scaled in E; cbn [with_parts pf_parts pf_wts] in *.
    + destruct E as (D' & S'). split; [exact D'|]. split; [exact S'|]. split; assumption.
    + rewrite !map_length. reflexivity.
    + lra.
    + apply positive_total; [|exact T']. rewrite Forall_map. eapply Forall_impl; [|exact P]. intros; simpl in *; lra.
Qed.

Lemma filter_run_ok : forall ops f f', distribution f -> weighted_stats f -> (1 <= pf_min f \/ 1 <= pf_max f)%Z -> ops_ok f ops -> filter_run f ops = Ok f' ->
  distribution f' /\ weighted_stats f' /\
  forall u v, 0 <= u * u * a00 (pf_cov f') + 2 * u * v * a01 (pf_cov f') + v * v * a11 (pf_cov f').
Proof.
  induction ops as [|o ops IH]; intros f f' D S M O E; cbn in E.
  - injection E as <-. split; [exact D|]. split; [exact S|]. intros u v. apply weighted_psd; [exact S|apply D].
  - apply bind_ok in E. destruct E as (g & Hg & E). destruct O as (O1 & O2).
    destruct (filter_step_ok _ _ _ D M O1 Hg) as (D' & (S' & _) & E1 & E2).
    eapply IH; [exact D'|exact S'|rewrite E1, E2; exact M|apply O2; exact Hg|exact E].
Qed.

(** * C44, C46 *)
Theorem weights_distribution : forall mn mx m ops f0 f, (1 <= mn)%Z ->
  filter_new mn mx m = Ok f0 -> ops_ok f0 ops -> filter_run f0 ops = Ok f -> distribution f.
Proof.
  intros mn mx m ops f0 f M H O E. destruct (filter_new_ok _ _ _ _ M H) as (D & S & _).
  apply update_stats_parts in H. destruct H as (_ & E1 & _). cbn [pf_min] in E1.
  eapply filter_run_ok; try eassumption. rewrite E1. left. exact M.
Qed.

Theorem statistics_correct : forall mn mx m ops f0 f, (1 <= mn)%Z ->
  filter_new mn mx m = Ok f0 -> ops_ok f0 ops -> filter_run f0 ops = Ok f ->
  weighted_stats f /\
  forall u v, 0 <= u * u * a00 (pf_cov f) + 2 * u * v * a01 (pf_cov f) + v * v * a11 (pf_cov f).
Proof.
  intros mn mx m ops f0 f M H O E. destruct (filter_new_ok _ _ _ _ M H) as (D & S & _).
  apply update_stats_parts in H. destruct H as (_ & E1 & _). cbn [pf_min] in E1.
  eapply filter_run_ok; try eassumption. rewrite E1. left. exact M.
Qed.

(** No call other than measure and resample can fail. *)
Lemma update_stats_total : forall (T : Type) (A : Arith T) (f : pfilter T), (length (pf_parts f) <= length (pf_wts f))%nat ->
  exists f', update_stats f = Ok f'.
Proof.
  intros T A f L. unfold update_stats. rewrite with_weights_ok by (rewrite map_length; exact L). eexists. reflexivity.
Qed.

Lemma filter_new_total : forall (T : Type) (A : Arith T) mn mx (m : motion_params T), exists f, filter_new mn mx m = Ok f.
Proof. intros. apply update_stats_total. cbn. rewrite !repeat_length. lia. Qed.

(** * C47: the exact law *)
Theorem heading_variance_accumulates : forall f o f', distribution f -> (1 <= pf_min f \/ 1 <= pf_max f)%Z -> op_ok f o -> filter_step f o = Ok f' ->
  exists v, heading_variance (pf_parts f') (pf_wts f') (v2 (pf_mean f')) v /\ 0 <= v /\ a22 (pf_cov f') = a22 (pf_cov f) + v.
Proof. intros f o f' D M O E. destruct (filter_step_ok _ _ _ D M O E) as (_ & (_ & _ & H) & _). exact H. Qed.

(** * C45: totality over R *)
Lemma kld_total : forall err z k n, 0 < err -> 0 <= z -> (1 < k <= n)%nat ->
  IZR (Z.of_nat n) / (2 * err) * ((1 + z) * (1 + z) * (1 + z)) < IZR (2 ^ 64) ->
  exists m, kld_bound err z k = Ok m.
Proof.
  intros err z k n He Hz Hk B. unfold kld_bound. ra.
  set (k1 := IZR (Z.of_nat k - 1)).
  assert (K1 : 1 <= k1) by (apply IZR_le; lia).
  assert (K2 : k1 <= IZR (Z.of_nat n)) by (apply IZR_le; lia).
  assert (I1 : 0 < / (2 * err)) by (apply Rinv_0_lt_compat; lra).
  assert (I2 : 0 < / (9 * k1) <= / 9) by (split; [apply Rinv_0_lt_compat; lra|apply Rinv_le_contravar; lra]).
  set (a := k1 / (2 * err)). set (b := 2 / (9 * k1)).
  assert (Ha : 0 < a <= IZR (Z.of_nat n) / (2 * err)) by (unfold a, Rdiv; split; nra).
  assert (Hb : 0 < b <= 2 / 9) by (unfold b, Rdiv; lra).
  assert (Hs : 0 <= sqrt b <= 1).
  { split; [apply sqrt_pos|]. rewrite <- sqrt_1. apply sqrt_le_1; lra. }
  set (c := 1 - b + sqrt b * z).
  assert (Hc : 0 < c <= 1 + z) by (unfold c; split; nra).
  assert (P : 0 <= a * c * c * c < IZR (2 ^ 64)).
  { assert (C3 : 0 < c * c * c <= (1 + z) * (1 + z) * (1 + z)).
    { split; [apply Rmult_lt_0_compat; [apply Rmult_lt_0_compat|]; lra|].
      apply Rmult_le_compat; try nra. }
    replace (a * c * c * c) with (a * (c * c * c)) by ring. split; [nra|].
    apply Rle_lt_trans with (2 := B). apply Rmult_le_compat; lra. }
  unfold cast_unsigned. cbn [ntrunc RA].
  assert (0 <= Ztrunc (a * c * c * c) < 2 ^ 64)%Z.
  { rewrite Ztrunc_floor by apply P. split; [apply Zfloor_lub; simpl; lra|].
    apply lt_IZR. eapply Rle_lt_trans; [apply Zfloor_lb|apply P]. }
  destruct (Z.leb_spec 0 (Ztrunc (a * c * c * c))); [|lia].
  destruct (Z.ltb_spec (Ztrunc (a * c * c * c)) (2 ^ 64)); [|lia]. eexists. reflexivity.
Qed.

Definition kd_small (t : @kd R) : Prop := match fst t with None => True | Some r => Forall small_key (leaves r) end.

Lemma kd_add_total : forall size (t : @kd R) c v k, kd_small t -> kd_key size c = Ok k -> small_key k ->
  exists t', kd_add size t c v = Ok t' /\ kd_small t' /\ (kd_leaf_count t' <= S (kd_leaf_count t))%nat.
Proof.
  intros size t c v k S K SK. unfold kd_add. rewrite K. cbn [bind]. unfold kd_small in S.
  destruct t as ([root|] & n); cbn [fst snd] in *.
  - destruct (insert_total root k v S SK) as (root' & b & E & I). rewrite E. cbn [bind].
    eexists. split; [reflexivity|]. split.
    + unfold kd_small. cbn [fst]. apply Forall_forall. intros k' Hk'. apply I in Hk'.
      destruct Hk' as [->|Hk']; [exact SK|]. rewrite Forall_forall in S. apply S. exact Hk'.
    + unfold kd_leaf_count. cbn [snd]. destruct b; lia.
  - eexists. split; [reflexivity|]. split; [|unfold kd_leaf_count; cbn; lia].
    unfold kd_small. cbn [fst leaves]. constructor; [exact SK|constructor].
Qed.

Lemma particle_key : forall p : vec3 R, Rabs (v0 p) <= IZR (2 ^ 28) -> Rabs (v1 p) <= IZR (2 ^ 28) -> - PI < v2 p <= PI ->
  exists k, kd_key bin_size p = Ok k /\ small_key k.
Proof.
  intros p H0 H1 H2. pose proof PI_4 as P4. pose proof PI_RGT_0 as PP.
  assert (G : forall x : R, Rabs x <= IZR (2 ^ 29) -> (- 2 ^ 30 < Ztrunc x < 2 ^ 30)%Z).
  { intros x Hx. assert (L : (Z.abs (Ztrunc x) <= 2 ^ 29)%Z); [|lia].
    apply le_IZR. rewrite abs_IZR. apply Rle_trans with (2 := Hx).
    rewrite <- abs_IZR, <- Ztrunc_abs, Ztrunc_floor by apply Rabs_pos. apply Zfloor_lb. }
  unfold kd_key, bin_size. ra. cbn [v0 v1 v2].
  assert (A0 : Rabs (v0 p / (1 / 2)) <= IZR (2 ^ 29)).
  { replace (v0 p / (1 / 2)) with (2 * v0 p) by field. rewrite Rabs_mult, (Rabs_pos_eq 2) by lra.
    change (IZR (2 ^ 29)) with (IZR (2 * 2 ^ 28)). rewrite mult_IZR. lra. }
  assert (A1 : Rabs (v1 p / (1 / 2)) <= IZR (2 ^ 29)).
  { replace (v1 p / (1 / 2)) with (2 * v1 p) by field. rewrite Rabs_mult, (Rabs_pos_eq 2) by lra.
    change (IZR (2 ^ 29)) with (IZR (2 * 2 ^ 28)). rewrite mult_IZR. lra. }
  assert (A2 : Rabs (v2 p / (2671 / 10000)) <= IZR (2 ^ 29)).
  { apply Rle_trans with 16; [|apply IZR_le; lia].
    replace (v2 p / (2671 / 10000)) with (10000 / 2671 * v2 p) by field. apply Rabs_le. lra. }
  apply G in A0, A1, A2.
  rewrite !cast_int32_ok by lia. cbn [bind]. eexists. split; [reflexivity|].
  intro i. destruct i as [|[|i]]; cbn [kget v0 v1 v2]; lia.
Qed.

Lemma resample_loop_total : forall draws ps ws mn mx err z acc (tree : @kd R) m,
  length ps = length ws -> Forall (fun i => 0 <= i < Z.of_nat (length ps))%Z draws ->
  Forall (fun p => exists k, kd_key bin_size p = Ok k /\ small_key k) ps ->
  0 < err -> 0 <= z -> IZR mx / (2 * err) * ((1 + z) * (1 + z) * (1 + z)) < IZR (2 ^ 64) ->
  (mn <= mx)%Z -> (Z.of_nat (length acc) < mx)%Z -> (mx <= Z.of_nat (length acc) + Z.of_nat (length draws))%Z ->
  kd_small tree -> (kd_leaf_count tree <= length acc)%nat ->
  exists r, resample_loop draws ps ws mn mx err z acc tree m = Ok r.
Proof.
  intros draws. induction draws as [|i draws IH]; intros ps ws mn mx err z acc tree m L F K He Hz B M LA LD S C; simpl.
  - simpl in LD. lia.
  - destruct (_ <? _)%Z; [|eexists; reflexivity].
    inversion F as [|? ? Fi F']; subst.
    destruct (vec_get_ok ps i Fi) as (p & Hp & Np). destruct (vec_get_ok ws i) as (w & Hw & _); [lia|].
    rewrite Hp, Hw. cbn [bind].
    assert (Kp : exists k, kd_key bin_size p = Ok k /\ small_key k).
    { rewrite Forall_forall in K. apply K. apply nth_error_In in Np. exact Np. }
    destruct Kp as (k & Kk & Sk). destruct (kd_add_total bin_size tree p w k S Kk Sk) as (t' & -> & S' & C'). cbn [bind].
    assert (X : exists m', (if (1 <? kd_leaf_count t')%nat then kld_bound err z (kd_leaf_count t') else Ok m) = Ok m').
    { destruct (Nat.ltb_spec 1 (kd_leaf_count t')) as [D|D]; [|eexists; reflexivity].
      eapply (kld_total err z _ (Z.to_nat mx)); [exact He|exact Hz|lia|rewrite Z2Nat.id by lia; exact B]. }
    destruct X as (m' & ->). cbn [bind].
    destruct (Z.leb_spec mx (Z.of_nat (length (acc ++ [(p, w)])))) as [D|D]; [eexists; reflexivity|].
    apply IH; try assumption.
    + rewrite app_length. simpl length in *. lia.
    + rewrite app_length. simpl. lia.
Qed.

Theorem resample_total : forall draws err z (f : pfilter R),
  distribution f -> (0 <= pf_min f <= pf_max f)%Z -> (1 <= pf_max f)%Z ->
  Forall (fun i => 0 <= i < Z.of_nat (length (pf_parts f)))%Z draws -> (pf_max f <= Z.of_nat (length draws))%Z ->
  0 < err -> 0 <= z -> IZR (pf_max f) / (2 * err) * ((1 + z) * (1 + z) * (1 + z)) < IZR (2 ^ 64) ->
  Forall (fun p => Rabs (v0 p) <= IZR (2 ^ 28) /\ Rabs (v1 p) <= IZR (2 ^ 28) /\ - PI < v2 p <= PI) (pf_parts f) ->
  exists f', filter_resample draws err z f = Ok f'.
Proof.
  intros draws err z f (L & P & T) M X F D He Hz B K. unfold filter_resample.
  assert (DO : dist_ok (pf_wts f) = true).
  { unfold dist_ok. destruct (pf_wts f) as [|w ws] eqn:E; [reflexivity|]. rewrite <- E in *.
    apply andb_true_intro. split.
    - apply forallb_forall. rewrite Forall_forall in P. intros x Hx. specialize (P x Hx). ra.
      rewrite Rle_bool_true by exact P. reflexivity.
    - change (fold_left nadd (pf_wts f) nzero) with (fold_left Rplus (pf_wts f) 0). rewrite fold_total, T. ra.
      apply Rlt_bool_true. lra. }
  rewrite DO.
  destruct (resample_loop_total draws (pf_parts f) (pf_wts f) (pf_min f) (pf_max f) err z [] kd_empty (pf_max f)) as (r & ->);
    try assumption; try (simpl; lia).
  - rewrite Forall_forall in *. intros p Hp. destruct (K p Hp) as (K0 & K1 & K2). apply particle_key; assumption.
  - exact I.
  - cbn [bind]. apply update_stats_total. cbn. rewrite !map_length. lia.
Qed.

(** * C48: the exact law *)
Lemma wsum_map_draws : forall (g : vec3 R -> R) (ps : list (vec3 R)) (ws : list R) used qs vs s,
  Forall2 (fun i p => vec_get ps i = Ok p) used qs ->
  Forall2 (fun i w' => exists w, vec_get ws i = Ok w /\ w' = w / s) used vs ->
  wsum g qs vs = / s * total (map (fun i => nth (Z.to_nat i) ws 0 * g (nth (Z.to_nat i) ps (mkVec3 0 0 0))) used).
Proof.
  intros g ps ws used qs vs s H. revert vs. induction H as [|i p used qs Hp H IH]; intros vs G; inversion G as [|? v' ? vs' (w & Hw & ->) G']; subst.
  - unfold total. simpl. lra.
  - cbn [wsum map]. rewrite (IH _ G'). unfold total. cbn [fold_right].
    apply vec_get_inv in Hp. destruct Hp as (_ & Hp). apply vec_get_inv in Hw. destruct Hw as (_ & Hw).
    erewrite (nth_error_nth ps), (nth_error_nth ws) by eassumption. unfold Rdiv. ring.
Qed.

(** Sum over draws = sum over indices, weighted with the number of draws. *)
Lemma total_zero : forall (X : Type) (l : list X), total (map (fun _ => 0) l) = 0.
Proof. intros X l. induction l as [|x l IH]; unfold total in *; simpl; [|rewrite IH]; lra. Qed.
Lemma total_plus : forall (X : Type) (g h : X -> R) l, total (map (fun x => g x + h x) l) = total (map g l) + total (map h l).
Proof. intros X g h l. induction l as [|x l IH]; unfold total in *; simpl; [lra|]. rewrite IH. lra. Qed.
Lemma total_scal : forall (X : Type) c (g : X -> R) l, total (map (fun x => c * g x) l) = c * total (map g l).
Proof. intros X c g l. induction l as [|x l IH]; unfold total in *; simpl; [lra|]. rewrite IH. lra. Qed.
Lemma total_ext : forall (X : Type) (g h : X -> R) l, (forall x, In x l -> g x = h x) -> total (map g l) = total (map h l).
Proof.
  intros X g h l H. unfold total. f_equal. apply map_ext_in. exact H.
Qed.

Lemma total_pick : forall (g : nat -> R) j n, (j < n)%nat ->
  total (map (fun i => (if Nat.eq_dec i j then 1 else 0) * g i) (seq 0 n)) = g j.
Proof.
  intros g j n H. induction n as [|n IH]; [lia|].
  rewrite seq_S, map_app, total_app. cbn [plus map]. unfold total at 2. cbn [fold_right].
  destruct (Nat.eq_dec n j) as [->|NE].
  - assert (Z0 : total (map (fun i => (if Nat.eq_dec i j then 1 else 0) * g i) (seq 0 j)) = 0).
    { transitivity (total (map (fun _ : nat => 0) (seq 0 j))); [|apply total_zero]. apply total_ext. intros i Hi. apply in_seq in Hi.
      destruct (Nat.eq_dec i j); [lia|]. ring. }
    rewrite Z0. ring.
  - rewrite IH by lia. ring.
Qed.

Lemma total_counts : forall (g : nat -> R) n used, (forall j, In j used -> (j < n)%nat) ->
  total (map g used) = total (map (fun i => INR (count_occ Nat.eq_dec used i) * g i) (seq 0 n)).
Proof.
  intros g n used. induction used as [|j used IH]; intro H.
  - cbn [map count_occ]. symmetry. transitivity (total (map (fun _ : nat => 0) (seq 0 n))); [apply total_ext; intros; simpl; ring|rewrite total_zero; reflexivity].
  - cbn [map]. unfold total at 1. cbn [fold_right]. fold (total (map g used)).
    rewrite IH by (intros; apply H; right; assumption).
    rewrite <- (total_pick g j n) by (apply H; left; reflexivity).
    rewrite <- total_plus. apply total_ext. intros i _. cbn [count_occ].
    destruct (Nat.eq_dec j i), (Nat.eq_dec i j); try congruence; try (rewrite S_INR); ring.
Qed.

Lemma wsum_seq : forall (g : vec3 R -> R) h ps ws, length ps = length ws ->
  total (map (fun i => h (nth i ws 0) * (nth i ws 0 * g (nth i ps (mkVec3 0 0 0)))) (seq 0 (length ps))) =
  wsum g ps (map (fun w => h w * w) ws).
Proof.
  intros g h ps. induction ps as [|p ps IH]; intros [|w ws] L; try discriminate; [reflexivity|].
  cbn [length seq map wsum]. unfold total. cbn [fold_right]. rewrite <- seq_shift, map_map. cbn [nth].
  rewrite <- IH by (injection L; auto). unfold total. ring.
Qed.

Lemma wsum_scale_w : forall c g ps ws, wsum g ps (map (fun w => c * w) ws) = c * wsum g ps ws.
Proof. intros c g. induction ps as [|p ps IH]; intros [|w ws]; cbn [map wsum]; try lra. rewrite IH. lra. Qed.

(** Every draw used: the drawn sum of any function is the sum with squared weights. *)
Lemma proportional_sum : forall (g : vec3 R -> R) ps ws draws, length ps = length ws ->
  Forall (fun i => 0 <= i < Z.of_nat (length ps))%Z draws ->
  (forall i w, vec_get ws i = Ok w -> INR (count_occ Z.eq_dec draws i) = INR (length draws) * w) ->
  total (map (fun i => nth (Z.to_nat i) ws 0 * g (nth (Z.to_nat i) ps (mkVec3 0 0 0))) draws) =
  INR (length draws) * wsum g ps (map (fun w => w * w) ws).
Proof.
  intros g ps ws draws L F C.
  assert (E1 : total (map (fun i => nth (Z.to_nat i) ws 0 * g (nth (Z.to_nat i) ps (mkVec3 0 0 0))) draws) =
               total (map (fun i => nth i ws 0 * g (nth i ps (mkVec3 0 0 0))) (map Z.to_nat draws))) by (rewrite map_map; reflexivity).
  rewrite E1, (total_counts _ (length ps)).
  2: { intros j Hj. apply in_map_iff in Hj. destruct Hj as (i & <- & Hi). rewrite Forall_forall in F. specialize (F i Hi). lia. }
  rewrite <- (wsum_seq g (fun w => w)) by exact L. rewrite <- total_scal. apply total_ext.
  intros i Hi. apply in_seq in Hi.
  assert (CO : count_occ Nat.eq_dec (map Z.to_nat draws) i = count_occ Z.eq_dec draws (Z.of_nat i)).
  { clear - F. induction draws as [|d draws IH]; [reflexivity|]. inversion F; subst. cbn [map count_occ].
    rewrite IH by assumption. destruct (Nat.eq_dec (Z.to_nat d) i), (Z.eq_dec d (Z.of_nat i)); try reflexivity; exfalso; lia. }
  rewrite CO. destruct (vec_get_ok ws (Z.of_nat i)) as (w & Hw & Nw); [lia|].
  rewrite (C _ _ Hw). rewrite Nat2Z.id in Nw. erewrite (nth_error_nth ws) by eassumption. ring.
Qed.

Lemma Forall2_len : forall (X Y : Type) (P : X -> Y -> Prop) a b, Forall2 P a b -> length a = length b.
Proof. intros X Y P a b H. induction H; simpl; congruence. Qed.

Theorem resample_law : forall draws err z (f f' : pfilter R),
  distribution f -> (0 <= pf_min f <= pf_max f)%Z -> (1 <= pf_max f)%Z ->
  length draws = Z.to_nat (pf_max f) -> length (pf_parts f') = length draws ->
  proportional (pf_wts f) draws -> filter_resample draws err z f = Ok f' ->
  let sq := map (fun w => w * w) (pf_wts f) in
  0 < total sq /\
  v0 (pf_mean f') = wsum v0 (pf_parts f) sq / total sq /\ v1 (pf_mean f') = wsum v1 (pf_parts f) sq / total sq.
Proof.
  intros draws err z f f' D M X LD LP (F & C) E sq.
  destruct D as (L & P & T). assert (D : distribution f) by (split; [|split]; assumption).
  assert (O : op_ok f (FResample draws err z)).
  { cbn. rewrite Forall_forall in *. intros i Hi. destruct (vec_get_ok (pf_wts f) i (F i Hi)) as (w & Hw & _).
    exists w. split; [exact Hw|]. specialize (C i w Hw).
    assert (K : (0 < count_occ Z.eq_dec draws i)%nat) by (apply count_occ_In; exact Hi).
    apply lt_0_INR in K. pose proof (pos_INR (length draws)). 
    destruct (Rle_lt_dec w 0); [nra|assumption]. }
  destruct (filter_step_ok f (FResample draws err z) f' D (or_intror X) O E) as ((L' & P' & T') & (S & _) & _).
  rewrite L in F.
  pose proof (resample_spec draws err z f M X (eq_sym L) F) as R. rewrite E in R.
  destruct R as (_ & _ & s & used & (rest & Hu) & G1 & G2); [lia|].
  assert (used = draws).
  { assert (length used = length draws) by (rewrite <- LP; eapply Forall2_len; exact G1).
    rewrite Hu, app_length in H. destruct rest; [rewrite app_nil_r in Hu; congruence|simpl in H; lia]. }
  subst used. destruct S as (S0 & S1 & _).
  assert (K : forall g, wsum g (pf_parts f') (pf_wts f') = / s * (INR (length draws) * wsum g (pf_parts f) sq)).
  { intro g. erewrite wsum_map_draws by eassumption. rewrite proportional_sum; [reflexivity|symmetry; exact L|exact F|exact C]. }
  assert (One : 1 = / s * INR (length draws) * total sq).
  { rewrite <- T'. rewrite <- (Rmult_1_l (total (pf_wts f'))), <- (wsum_const 1 (pf_parts f')) by (symmetry; exact L').
    rewrite K, wsum_const by (unfold sq; rewrite map_length; symmetry; exact L). ring. }
  assert (Q : 0 < total sq).
  { assert (0 <= total sq) by (apply total_nonneg; unfold sq; rewrite Forall_map; eapply Forall_impl; [|exact P]; intros; apply Rle_0_sqr).
    destruct (Req_dec (total sq) 0) as [Z0|]; [rewrite Z0, Rmult_0_r in One; lra|lra]. }
  split; [exact Q|]. rewrite S0, S1, !K. clear K G2. generalize dependent (/ s). intros is One. split.
  - transitivity ((is * INR (length draws) * total sq) * (wsum v0 (pf_parts f) sq / total sq)); [field; lra|]. rewrite <- One. ring.
  - transitivity ((is * INR (length draws) * total sq) * (wsum v1 (pf_parts f) sq / total sq)); [field; lra|]. rewrite <- One. ring.
Qed.

(** Equal weights: the mean position is kept. *)
Theorem resample_unbiased_uniform : forall draws err z (f f' : pfilter R) w,
  distribution f -> (0 <= pf_min f <= pf_max f)%Z -> (1 <= pf_max f)%Z ->
  length draws = Z.to_nat (pf_max f) -> length (pf_parts f') = length draws ->
  proportional (pf_wts f) draws -> Forall (fun v => v = w) (pf_wts f) -> filter_resample draws err z f = Ok f' ->
  v0 (pf_mean f') = wsum v0 (pf_parts f) (pf_wts f) /\ v1 (pf_mean f') = wsum v1 (pf_parts f) (pf_wts f).
Proof.
  intros draws err z f f' w D M X LD LP PR U E.
  destruct (resample_law draws err z f f' D M X LD LP PR E) as (Q & -> & ->).
  assert (S : map (fun v => v * v) (pf_wts f) = map (fun v => w * v) (pf_wts f)).
  { apply map_ext_in. intros v Hv. rewrite Forall_forall in U. rewrite (U v Hv). reflexivity. }
  rewrite S in *. rewrite !wsum_scale_w. rewrite total_scal, map_id in *. destruct D as (_ & _ & T). rewrite T in *.
  split; field; lra.
Qed.
