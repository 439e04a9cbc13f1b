(** Proofs about the particle filter, exact arithmetic unless generic. *)

From Coq Require Import ZArith Reals List Bool Lra Lia Psatz.
From Flocq Require Import Core.
From Verif Require Import Outcome Arith TypesModel SpecPose RTactics ConstraintProofs NdtProofs OccProofs KdModel MotionModel FilterModel SpecFilter AngleProofs KdProofs MotionProofs MatcherProofs.
Import ListNotations.
Local Open Scope R_scope.

(** * Weighted sums *)
Lemma fold_total : forall ws a, fold_left Rplus ws a = a + total ws.
Proof. induction ws as [|w ws IH]; intro a; unfold total in *; simpl; [lra|rewrite IH; lra]. Qed.
Lemma total_app : forall a b, total (a ++ b) = total a + total b.
Proof. unfold total. induction a as [|x a IH]; intro b; simpl; [lra|rewrite IH; lra]. Qed.
Lemma total_scale : forall s ws, total (map (fun w => w / s) ws) = total ws / s.
Proof.
  intros s. unfold total. induction ws as [|w ws IH]; simpl; [unfold Rdiv; ring|rewrite IH; unfold Rdiv; ring].
Qed.
Lemma total_repeat : forall n c, total (repeat c n) = INR n * c.
Proof. intros n c. induction n as [|n IH]; unfold total in *; [simpl; ring|]. cbn [repeat fold_right]. rewrite IH, S_INR. ring. Qed.
Lemma total_nonneg : forall ws, Forall (fun w => 0 <= w) ws -> 0 <= total ws.
Proof. intros ws H. induction H; unfold total in *; simpl; lra. Qed.
Lemma total_pos : forall ws, ws <> [] -> Forall (fun w => 0 < w) ws -> 0 < total ws.
Proof.
  intros ws N H. destruct H as [|w ws Hw H]; [contradiction|].
  assert (0 <= total ws) by (apply total_nonneg; eapply Forall_impl; [|exact H]; intros; simpl in *; lra).
  unfold total in *. simpl. lra.
Qed.
Lemma total_neg : forall ws, Forall (fun w => w <= 0) ws -> total ws <= 0 /\ (Exists (fun w => w <> 0) ws -> total ws < 0).
Proof.
  intros ws H. induction H as [|w ws Hw H (I1 & I2)]; unfold total in *; simpl.
  - split; [lra|]. intro E. inversion E.
  - split; [lra|]. intro E. inversion E; subst; [lra|]. specialize (I2 H1). lra.
Qed.

Lemma wsum_plus : forall g h ps ws, wsum (fun p => g p + h p) ps ws = wsum g ps ws + wsum h ps ws.
Proof. intros g h. induction ps as [|p ps IH]; intros [|w ws]; simpl; try lra. rewrite IH. lra. Qed.
Lemma wsum_scal : forall c g ps ws, wsum (fun p => c * g p) ps ws = c * wsum g ps ws.
Proof. intros c g. induction ps as [|p ps IH]; intros [|w ws]; simpl; try lra. rewrite IH. lra. Qed.
Lemma wsum_const : forall c ps ws, length ps = length ws -> wsum (fun _ => c) ps ws = c * total ws.
Proof.
  intros c. induction ps as [|p ps IH]; intros [|w ws] L; try discriminate; unfold total in *; simpl; [lra|].
  rewrite IH by (injection L; auto). lra.
Qed.
Lemma wsum_ext : forall g h ps ws, (forall p, In p ps -> g p = h p) -> wsum g ps ws = wsum h ps ws.
Proof.
  intros g h. induction ps as [|p ps IH]; intros [|w ws] H; simpl; try reflexivity.
  rewrite (H p) by (left; reflexivity). rewrite IH; [reflexivity|]. intros; apply H; right; assumption.
Qed.
Lemma wsum_nonneg : forall g ps ws, (forall p, In p ps -> 0 <= g p) -> Forall (fun w => 0 <= w) ws -> 0 <= wsum g ps ws.
Proof.
  intros g. induction ps as [|p ps IH]; intros [|w ws] H F; simpl; try lra.
  inversion F; subst. assert (0 <= g p) by (apply H; left; reflexivity).
  assert (0 <= wsum g ps ws) by (apply IH; [intros; apply H; right; assumption|assumption]). nra.
Qed.

Lemma wsum_cov : forall g h ps ws, length ps = length ws -> total ws = 1 ->
  wsum (fun p => (g p - wsum g ps ws) * (h p - wsum h ps ws)) ps ws =
  wsum (fun p => g p * h p) ps ws - wsum g ps ws * wsum h ps ws.
Proof.
  intros g h ps ws L T. set (mg := wsum g ps ws). set (mh := wsum h ps ws).
  transitivity (wsum (fun p => (g p * h p + (- mh) * g p) + ((- mg) * h p + mg * mh)) ps ws).
  - apply wsum_ext. intros p _. ring.
  - rewrite !wsum_plus, !wsum_scal, wsum_const, T by exact L. fold mg mh. ring.
Qed.

(** * updateStatistics *)
Lemma with_weights_inv : forall (T : Type) (ps : list (vec3 T)) ws pw,
  with_weights ps ws = Ok pw -> pw = combine ps ws /\ (length ps <= length ws)%nat.
Proof.
  intros T ps. induction ps as [|p ps IH]; intros ws pw H; simpl in H.
  - injection H as <-. split; [reflexivity|]. simpl. lia.
  - destruct ws as [|w ws]; [discriminate|]. apply bind_ok in H. destruct H as (rest & Hr & H). injection H as <-.
    destruct (IH _ _ Hr) as [-> L]. split; [reflexivity|]. simpl. lia.
Qed.
Lemma with_weights_ok : forall (T : Type) (ps : list (vec3 T)) ws,
  (length ps <= length ws)%nat -> with_weights ps ws = Ok (combine ps ws).
Proof.
  intros T ps. induction ps as [|p ps IH]; intros ws H; simpl; [reflexivity|].
  destruct ws as [|w ws]; simpl in H; [lia|]. rewrite IH by lia. reflexivity.
Qed.

Lemma sums_spec : forall ps ws (s : @sums R),
  let s' := fold_left (fun s q => sums_add s (fst q) (snd q)) (combine ps ws) s in
  v0 (su_mean s') = v0 (su_mean s) + wsum v0 ps ws /\
  v1 (su_mean s') = v1 (su_mean s) + wsum v1 ps ws /\
  su_cos s' = su_cos s + wsum (fun p => cos (v2 p)) ps ws /\
  su_sin s' = su_sin s + wsum (fun p => sin (v2 p)) ps ws /\
  su_xx s' = su_xx s + wsum (fun p => v0 p * v0 p) ps ws /\
  su_xy s' = su_xy s + wsum (fun p => v0 p * v1 p) ps ws /\
  su_yy s' = su_yy s + wsum (fun p => v1 p * v1 p) ps ws.
Proof.
  intros ps. induction ps as [|p ps IH]; intros ws s.
  - simpl. repeat split; lra.
  - destruct ws as [|w ws]; [simpl; repeat split; lra|].
    cbn [combine fold_left wsum fst snd]. specialize (IH ws (sums_add s p w)). cbv zeta in *.
    destruct IH as (H1 & H2 & H3 & H4 & H5 & H6 & H7).
    rewrite H1, H2, H3, H4, H5, H6, H7. unfold sums_add. ra. cbn [su_mean su_cos su_sin su_xx su_xy su_yy v0 v1 v2].
    repeat split; ring.
Qed.

Lemma var_spec : forall m ps ws a,
  fold_left (fun acc q => acc + snd q * angle_diff (v2 (fst q)) m * angle_diff (v2 (fst q)) m) (combine ps ws) a =
  a + wsum (fun p : vec3 R => angle_diff (v2 p) m * angle_diff (v2 p) m) ps ws.
Proof.
  intros m ps. induction ps as [|p ps IH]; intros ws a; [simpl; lra|].
  destruct ws as [|w ws]; [simpl; lra|]. cbn [combine fold_left wsum fst snd]. rewrite IH. ring.
Qed.

Lemma update_stats_R : forall (f f' : pfilter R), update_stats f = Ok f' ->
  length (pf_wts f) = length (pf_parts f) -> total (pf_wts f) <> 0 ->
  pf_wts f' = map (fun w => w / total (pf_wts f)) (pf_wts f) /\
  length (pf_wts f') = length (pf_parts f') /\ total (pf_wts f') = 1 /\ weighted_stats f' /\
  exists v, heading_variance (pf_parts f') (pf_wts f') (v2 (pf_mean f')) v /\ a22 (pf_cov f') = a22 (pf_cov f) + v.
Proof.
  intros f f' H L T. unfold update_stats in H.
  change (fold_left nadd (pf_wts f) nzero) with (fold_left Rplus (pf_wts f) 0) in H.
  rewrite fold_total, Rplus_0_l in H.
  apply bind_ok in H. destruct H as (pw & Hpw & H). apply with_weights_inv in Hpw. destruct Hpw as [-> _].
  injection H as <-. ra. cbn [pf_parts pf_wts pf_mean pf_cov a00 a01 a10 a11 a22 v0 v1 v2].
  set (ws := map (fun w => w / total (pf_wts f)) (pf_wts f)).
  assert (Lw : length ws = length (pf_parts f)) by (unfold ws; rewrite map_length; exact L).
  assert (Tw : total ws = 1) by (unfold ws; rewrite total_scale; field; exact T).
  destruct (sums_spec (pf_parts f) ws sums0) as (H1 & H2 & H3 & H4 & H5 & H6 & H7).
  cbv zeta in H1, H2, H3, H4, H5, H6, H7.
  set (s := fold_left (fun s q => sums_add s (fst q) (snd q)) (combine (pf_parts f) ws) sums0) in *. clearbody s.
  unfold sums0, vec3_zero in *. ra_in H1; ra_in H2; ra_in H3; ra_in H4; ra_in H5; ra_in H6; ra_in H7. cbn [su_mean su_cos su_sin su_xx su_xy su_yy v0 v1 v2] in *.
  rewrite Rplus_0_l in H1, H2, H3, H4, H5, H6, H7.
  split; [reflexivity|]. split; [exact Lw|]. split; [exact Tw|]. split.
  - unfold weighted_stats. cbn [pf_parts pf_wts pf_mean pf_cov a00 a01 a10 a11 a22 v0 v1 v2].
    split; [exact H1|]. split; [exact H2|]. split; [apply Ratan2_range|]. split.
    + exists (sqrt (su_cos s * su_cos s + su_sin s * su_sin s)).
      destruct (Ratan2_polar (su_sin s) (su_cos s)) as [C S]. split; [apply sqrt_pos|]. rewrite C, S. split; congruence.
    + rewrite H1, H2, !wsum_cov by (try exact Tw; symmetry; exact Lw). rewrite H5, H6, H7. repeat split; reflexivity.
  - rewrite var_spec. eexists. split; [|reflexivity].
    exists (fun p => angle_diff (v2 p) (Ratan2 (su_sin s) (su_cos s))). split; [|reflexivity].
    intros p _. unfold angle_diff. apply normalize_angle_spec.
Qed.

Lemma weighted_psd : forall (f : pfilter R) u v, weighted_stats f -> Forall (fun w => 0 <= w) (pf_wts f) ->
  0 <= u * u * a00 (pf_cov f) + 2 * u * v * a01 (pf_cov f) + v * v * a11 (pf_cov f).
Proof.
  intros f u v (_ & _ & _ & _ & E0 & E1 & _ & E2) F. rewrite E0, E1, E2.
  rewrite <- !wsum_scal, <- !wsum_plus. apply wsum_nonneg; [|exact F].
  intros p _. set (x := v0 p - _). set (y := v1 p - _).
  replace (u * u * (x * x) + 2 * u * v * (x * y) + v * v * (y * y)) with ((u * x + v * y) * (u * x + v * y)) by ring. apply Rle_0_sqr.
Qed.

(** * Resampling *)
Section Generic.
Context {T : Type} {A : Arith T}.

Lemma resample_loop_size : forall draws ps ws mn mx err z acc (tree : kd) m r,
  resample_loop draws ps ws mn mx err z acc tree m = Ok r -> (mn <= mx)%Z -> (Z.of_nat (length acc) < mx)%Z ->
  (mn <= Z.of_nat (length r) <= mx)%Z.
Proof.
  intros draws. induction draws as [|i draws IH]; intros ps ws mn mx err z acc tree m r H M L;
    simpl in H; destruct (Z.ltb_spec (Z.of_nat (length acc)) (Z.max mn m)) as [C|C].
  - discriminate.
  - injection H as <-. lia.
  - apply bind_ok in H. destruct H as (p & Hp & H). apply bind_ok in H. destruct H as (w & Hw & H).
    apply bind_ok in H. destruct H as (t' & _ & H). apply bind_ok in H. destruct H as (m' & _ & H).
    assert (LA : length (acc ++ [(p, w)]) = S (length acc)) by (rewrite app_length; simpl; lia).
    destruct (Z.leb_spec mx (Z.of_nat (length (acc ++ [(p, w)])))) as [D|D].
    + injection H as <-. rewrite LA in *. lia.
    + apply IH in H; [exact H|exact M|exact D].
  - injection H as <-. lia.
Qed.

(** The drawn particles and weights, in draw order. *)
Lemma resample_loop_draws : forall draws ps ws mn mx err z acc (tree : kd) m r,
  resample_loop draws ps ws mn mx err z acc tree m = Ok r ->
  exists n new, (n <= length draws)%nat /\ r = acc ++ new /\
    Forall2 (fun i q => vec_get ps i = Ok (fst q) /\ vec_get ws i = Ok (snd q)) (firstn n draws) new.
Proof.
  intros draws. induction draws as [|i draws IH]; intros ps ws mn mx err z acc tree m r H;
    simpl in H; destruct (_ <? _)%Z.
  - discriminate.
  - injection H as <-. exists O, []. rewrite app_nil_r. repeat split; [simpl; lia|constructor].
  - apply bind_ok in H. destruct H as (p & Hp & H). apply bind_ok in H. destruct H as (w & Hw & H).
    apply bind_ok in H. destruct H as (t' & _ & H). apply bind_ok in H. destruct H as (m' & _ & H).
    destruct (_ <=? _)%Z.
    + injection H as <-. exists 1%nat, [(p, w)]. split; [simpl; lia|]. split; [reflexivity|].
      simpl. constructor; [split; assumption|constructor].
    + apply IH in H. destruct H as (n & new & Hn & -> & F). exists (S n), ((p, w) :: new).
      split; [simpl; lia|]. split; [rewrite <- app_assoc; reflexivity|]. simpl. constructor; [split; assumption|exact F].
  - injection H as <-. exists O, []. rewrite app_nil_r. repeat split; [simpl; lia|constructor].
Qed.

Lemma check_int_fault : forall z e, check_int z = Fault e -> e = IntOverflow.
Proof. intros z e H. unfold check_int in H. destruct (fits_int z); congruence. Qed.
Lemma cast_int32_fault : forall (x : T) e, cast_int32 x = Fault e -> e = BadCast.
Proof. intros x e H. unfold cast_int32 in H. destruct (ntrunc x) as [n|]; [destruct (_ && _)%bool|]; congruence. Qed.

Lemma kd_add_fault : forall size (t : kd) c v e, kd_add size t c v = Fault e ->
  e = BadCast \/ e = IntOverflow.
Proof.
  intros size t c v e H. unfold kd_add in H. apply bind_fault in H. destruct H as [H|(k & Hk & H)].
  - left. unfold kd_key in H.
    repeat (apply bind_fault in H; destruct H as [H|(? & ? & H)];
      [exact (cast_int32_fault _ _ H)|]).
    discriminate.
  - destruct (fst t) as [r|]; [|discriminate]. apply bind_fault in H. destruct H as [H|(k2 & Hk2 & H)].
    2: { destruct k2. discriminate. }
    clear Hk. revert H. induction r as [pk pw|ax pv l IHl rr IHr]; intro H; cbn [kd_insert] in H.
    + destruct (key_eqb pk k) eqn:KE; [discriminate|].
      repeat (apply bind_fault in H; destruct H as [H|(? & ? & H)];
        [exact (or_intror (check_int_fault _ _ H))|]).
      destruct (pick_axis pk k) as [ax|] eqn:PA.
      * apply bind_fault in H; destruct H as [H|(? & ? & H)];
        [exact (or_intror (check_int_fault _ _ H))|discriminate].
      * apply pick_axis_none in PA. subst pk. pose proof (key_eqb_spec k k) as KS. rewrite KE in KS. inversion KS. contradiction.
    + destruct (nlt _ _); apply bind_fault in H; (destruct H as [H|((? & ?) & ? & H)]; [|discriminate]).
      * exact (IHl H).
      * exact (IHr H).
Qed.

Lemma kld_bound_fault : forall err z k e, kld_bound err z k = Fault e -> e = BadCast.
Proof.
  intros err z k e H. unfold kld_bound, cast_unsigned in H.
  match type of H with context [ntrunc ?x] => destruct (ntrunc x) as [n|] end; [destruct (_ && _)%bool|]; congruence.
Qed.

Lemma resample_loop_fault : forall draws ps ws mn mx err z acc (tree : kd) m e,
  resample_loop draws ps ws mn mx err z acc tree m = Fault e ->
  length ps = length ws -> Forall (fun i => 0 <= i < Z.of_nat (length ps))%Z draws ->
  (mn <= mx)%Z -> (Z.of_nat (length acc) < mx)%Z -> (mx <= Z.of_nat (length acc) + Z.of_nat (length draws))%Z ->
  e = BadCast \/ e = IntOverflow.
Proof.
  intros draws. induction draws as [|i draws IH]; intros ps ws mn mx err z acc tree m e H L F M B D;
    simpl in H; destruct (_ <? _)%Z; try discriminate.
  - simpl in D. lia.
  - inversion F as [|? ? Fi F']; subst.
    apply bind_fault in H. destruct H as [H|(p & Hp & H)].
    { exfalso. destruct (vec_get_ok ps i) as (q & Hq); [lia|]. destruct Hq as [Hq _]. congruence. }
    apply bind_fault in H. destruct H as [H|(w & Hw & H)].
    { exfalso. destruct (vec_get_ok ws i) as (q & Hq); [lia|]. destruct Hq as [Hq _]. congruence. }
    apply bind_fault in H. destruct H as [H|(t' & Ht & H)]; [exact (kd_add_fault _ _ _ _ _ H)|].
    apply bind_fault in H. destruct H as [H|(m' & Hm & H)].
    { left. destruct (1 <? _)%nat; [exact (kld_bound_fault _ _ _ _ H)|discriminate]. }
    destruct (Z.leb_spec mx (Z.of_nat (length (acc ++ [(p, w)])))) as [C|C]; [discriminate|].
    eapply IH; [exact H|exact L|exact F'|exact M|exact C|].
    rewrite app_length. simpl length in *. lia.
Qed.

Lemma Forall2_map_r : forall (X Y W : Type) (P : X -> W -> Prop) (g : Y -> W) a b,
  Forall2 (fun x y => P x (g y)) a b -> Forall2 P a (map g b).
Proof. intros X Y W P g a b H. induction H; simpl; constructor; auto. Qed.

Theorem resample_spec : forall draws err z (f : pfilter T),
  (0 <= pf_min f <= pf_max f)%Z -> (1 <= pf_max f)%Z -> length (pf_parts f) = length (pf_wts f) ->
  Forall (fun i => 0 <= i < Z.of_nat (length (pf_parts f)))%Z draws -> (pf_max f <= Z.of_nat (length draws))%Z ->
  match filter_resample draws err z f with
  | Ok f' =>
      (pf_min f <= Z.of_nat (length (pf_parts f')) <= pf_max f)%Z /\ length (pf_wts f') = length (pf_parts f') /\
      exists s used, (exists rest, draws = used ++ rest) /\
        Forall2 (fun i p => vec_get (pf_parts f) i = Ok p) used (pf_parts f') /\
        Forall2 (fun i w' => exists w, vec_get (pf_wts f) i = Ok w /\ w' = ndiv w s) used (pf_wts f')
  | Fault e => (e = BadDistribution /\ dist_ok (pf_wts f) = false) \/ e = BadCast \/ e = IntOverflow
  end.
Proof.
  intros draws err z f M X L F D.
  destruct (filter_resample draws err z f) as [f'|e] eqn:E; unfold filter_resample in E;
    (destruct (dist_ok (pf_wts f)) eqn:DO; [|try discriminate; injection E as <-; left; split; reflexivity]).
  - apply bind_ok in E. destruct E as (acc & Ha & E).
    pose proof (resample_loop_size _ _ _ _ _ _ _ _ _ _ _ Ha) as S. simpl length in S.
    destruct (resample_loop_draws _ _ _ _ _ _ _ _ _ _ _ Ha) as (n & new & Hn & -> & G). cbn [app] in *.
    unfold update_stats in E. cbn [with_parts pf_parts pf_wts] in E. apply bind_ok in E. destruct E as (pw & _ & E).
    injection E as <-. cbn [pf_parts pf_wts]. rewrite !map_length. split; [apply S; lia|]. split; [reflexivity|].
    exists (fold_left nadd (map snd new) nzero), (firstn n draws).
    split; [exists (skipn n draws); symmetry; apply firstn_skipn|].
    split.
    + apply Forall2_map_r. eapply Forall2_imp; [|exact G]. intros i q (H1 & _). exact H1.
    + rewrite map_map. apply Forall2_map_r. eapply Forall2_imp; [|exact G]. intros i q (_ & H2). exists (snd q). split; [exact H2|reflexivity].
  - right. apply bind_fault in E. destruct E as [E|(acc & Ha & E)].
    + eapply resample_loop_fault; try exact E; simpl; try assumption; lia.
    + exfalso. unfold update_stats in E. cbn [with_parts pf_parts pf_wts] in E.
      rewrite with_weights_ok in E by (rewrite !map_length; lia). discriminate.
Qed.
End Generic.
