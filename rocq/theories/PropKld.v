(** The number of particles after resampling. *)

From Coq Require Import ZArith Reals List Bool Lra Lia.
From Flocq Require Import Core BinarySingleNaN.
From Verif Require Import Outcome Arith TypesModel SpecPose RTactics ConstraintProofs NdtProofs KdModel MotionModel FilterModel SpecFilter SpecKld
  AngleProofs KdProofs MotionProofs FilterProofs FilterProofs2 FilterWitness OccProofs.
Import ListNotations.
Local Open Scope R_scope.

Section Generic.
Context {T : Type} {A : Arith T}.

Lemma kd_add_mono : forall size (t t' : kd) c v, kd_add size t c v = Ok t' -> (kd_leaf_count t <= kd_leaf_count t')%nat.
Proof.
  intros size t t' c v H. unfold kd_add in H. apply bind_ok in H. destruct H as (k & _ & H).
  destruct (fst t) as [root|].
  - apply bind_ok in H. destruct H as ((root', b) & _ & H). injection H as <-. unfold kd_leaf_count. cbn [snd]. destruct b; lia.
  - injection H as <-. unfold kd_leaf_count. cbn [snd]. lia.
Qed.

(** What the loop compares the number of particles with. *)
Definition asked (mx : Z) (err z : T) (acc : list (vec3 T * T)) (m : Z) : Prop :=
  exists tree, kd_add_all bin_size kd_empty acc = Ok tree /\
    (if (1 <? kd_leaf_count tree)%nat then kld_bound err z (kd_leaf_count tree) = Ok m else m = mx).

Lemma resample_loop_rule : forall draws ps ws mn mx err z acc (tree : kd) m r,
  resample_loop draws ps ws mn mx err z acc tree m = Ok r ->
  kd_add_all bin_size kd_empty acc = Ok tree ->
  (if (1 <? kd_leaf_count tree)%nat then kld_bound err z (kd_leaf_count tree) = Ok m else m = mx) ->
  (Z.of_nat (length acc) < mx)%Z ->
  (exists m', asked mx err z r m' /\ (Z.max mn m' <= Z.of_nat (length r) \/ mx <= Z.of_nat (length r))%Z) /\
  (forall j, (length acc <= j < length r)%nat -> exists m', asked mx err z (firstn j r) m' /\ (Z.of_nat j < Z.max mn m')%Z /\ (Z.of_nat j < mx)%Z).
Proof.
  intros draws. induction draws as [|i draws IH]; intros ps ws mn mx err z acc tree m r H Ht Hm L;
    cbn [resample_loop] in H; destruct (Z.ltb_spec (Z.of_nat (length acc)) (Z.max mn m)) as [C|C].
  - discriminate.
  - injection H as <-. split; [|intros; lia]. exists m. split; [exists tree; auto|left; exact C].
  - apply bind_ok in H. destruct H as (p & _ & H). apply bind_ok in H. destruct H as (w & _ & H).
    apply bind_ok in H. destruct H as (t' & Ht' & H). apply bind_ok in H. destruct H as (m' & Hm' & H).
    assert (LA : length (acc ++ [(p, w)]) = S (length acc)) by (rewrite app_length; simpl; lia).
    assert (Ha : kd_add_all bin_size kd_empty (acc ++ [(p, w)]) = Ok t').
    { unfold kd_add_all in *. rewrite foldM_app, Ht. cbn [bind foldM fst snd]. rewrite Ht'. reflexivity. }
    assert (Hm2 : if (1 <? kd_leaf_count t')%nat then kld_bound err z (kd_leaf_count t') = Ok m' else m' = mx).
    { destruct (Nat.ltb_spec 1 (kd_leaf_count t')) as [D|D]; [exact Hm'|].
      pose proof (kd_add_mono _ _ _ _ _ Ht') as Mo. destruct (Nat.ltb_spec 1 (kd_leaf_count tree)); [lia|]. congruence. }
    assert (First : forall r', firstn (length acc) ((acc ++ [(p, w)]) ++ r') = acc).
    { intro r'. rewrite <- app_assoc, firstn_app, firstn_all, Nat.sub_diag. cbn [firstn app]. rewrite app_nil_r. reflexivity. }
    assert (At : forall r', exists m0, asked mx err z (firstn (length acc) ((acc ++ [(p, w)]) ++ r')) m0 /\ (Z.of_nat (length acc) < Z.max mn m0)%Z /\ (Z.of_nat (length acc) < mx)%Z).
    { intro r'. rewrite First. exists m. split; [exists tree; auto|split; assumption]. }
    destruct (Z.leb_spec mx (Z.of_nat (length (acc ++ [(p, w)])))) as [D|D].
    + injection H as <-. split.
      * exists m'. split; [exists t'; auto|right; exact D].
      * intros j Hj. rewrite LA in Hj. replace j with (length acc) by lia.
        specialize (At []). rewrite app_nil_r in At. exact At.
    + destruct (resample_loop_draws _ _ _ _ _ _ _ _ _ _ _ H) as (n & new & _ & E & _).
      destruct (IH _ _ _ _ _ _ _ _ _ _ H Ha Hm2 D) as (I1 & I2). split; [exact I1|].
      intros j Hj. destruct (Nat.eq_dec j (length acc)) as [->|N].
      * rewrite E. apply At.
      * apply I2. rewrite LA. lia.
  - injection H as <-. split; [|intros; lia]. exists m. split; [exists tree; auto|left; exact C].
Qed.

Lemma resample_rule : forall draws err z (f f' : pfilter T), filter_resample draws err z f = Ok f' -> (1 <= pf_max f)%Z ->
  exists acc, pf_parts f' = map fst acc /\
  (exists m', asked (pf_max f) err z acc m' /\ (Z.max (pf_min f) m' <= Z.of_nat (length acc) \/ pf_max f <= Z.of_nat (length acc))%Z) /\
  (forall j, (j < length acc)%nat -> exists m', asked (pf_max f) err z (firstn j acc) m' /\ (Z.of_nat j < Z.max (pf_min f) m')%Z /\ (Z.of_nat j < pf_max f)%Z).
Proof.
  intros draws err z f f' H M. unfold filter_resample in H. destruct (dist_ok _); [|discriminate].
  apply bind_ok in H. destruct H as (acc & Ha & H).
  unfold update_stats in H. cbn [with_parts pf_parts pf_wts] in H. apply bind_ok in H. destruct H as (pw & _ & H).
  injection H as <-. cbn [pf_parts]. exists acc. split; [reflexivity|].
  destruct (resample_loop_rule _ _ _ _ _ _ _ _ _ _ _ Ha) as (R1 & R2); [reflexivity|reflexivity|simpl; lia|].
  split; [exact R1|]. intros j Hj. apply R2. simpl. lia.
Qed.

(** One bin: the tree is a single leaf. *)
Lemma one_bin_leaf : forall size (acc : list (vec3 T * T)) k, Forall (fun q => kd_key size (fst q) = Ok k) acc ->
  forall t : kd, (match fst t with Some (KLeaf k' _) => k' = k /\ snd t = 1%nat | None => snd t = 0%nat | _ => False end) ->
  forall t', kd_add_all size t acc = Ok t' -> (kd_leaf_count t' <= 1)%nat.
Proof.
  intros size acc k F. induction F as [|q acc Hq F IH]; intros t Ht t' H.
  - injection H as <-. unfold kd_leaf_count. destruct (fst t) as [[? ?|]|]; [lia|contradiction|lia].
  - unfold kd_add_all in H. cbn [foldM] in H. apply bind_ok in H. destruct H as (t1 & H1 & H).
    apply (IH t1); [|exact H]. unfold kd_add in H1. rewrite Hq in H1. cbn [bind] in H1.
    destruct (fst t) as [[k' v|]|].
    + destruct Ht as (-> & Ht). cbn [kd_insert] in H1. destruct (key_eqb_spec k k) as [_|N]; [|contradiction].
      cbn [bind] in H1. injection H1 as <-. cbn [fst snd]. split; [reflexivity|exact Ht].
    + contradiction.
    + injection H1 as <-. cbn [fst snd]. split; [reflexivity|lia].
Qed.

Lemma one_bin_max : forall draws err z (f f' : pfilter T) k, filter_resample draws err z f = Ok f' ->
  (0 <= pf_min f <= pf_max f)%Z -> (1 <= pf_max f)%Z -> Forall (fun p => kd_key bin_size p = Ok k) (pf_parts f) ->
  Z.of_nat (length (pf_parts f')) = pf_max f.
Proof.
  intros draws err z f f' k H M X F.
  destruct (resample_rule _ _ _ _ _ H X) as (acc & E & (m' & (tree & Ht & Hm) & Hs) & _).
  assert (Fa : Forall (fun q => kd_key bin_size (fst q) = Ok k) acc).
  { unfold filter_resample in H. destruct (dist_ok _); [|discriminate]. apply bind_ok in H. destruct H as (acc' & Ha & H).
    unfold update_stats in H. cbn [with_parts pf_parts pf_wts] in H. apply bind_ok in H. destruct H as (pw & _ & H).
    injection H as <-. cbn [pf_parts] in E.
    destruct (resample_loop_draws _ _ _ _ _ _ _ _ _ _ _ Ha) as (n & new & _ & -> & G). cbn [app] in E.
    assert (F1 : Forall (fun p => kd_key bin_size p = Ok k) (map fst new)).
    { rewrite Forall_forall in *. intros p Hp. apply in_map_iff in Hp. destruct Hp as (q & <- & Hq).
      clear - G F Hq. induction G as [|i q' l l' (G1 & _) G IH]; [destruct Hq|]. destruct Hq as [->|Hq]; [|auto].
      apply F. apply vec_get_inv in G1. destruct G1 as (_ & G1). apply nth_error_In in G1. exact G1. }
    rewrite E in F1. rewrite Forall_forall in *. intros q Hq. apply F1. apply in_map. exact Hq. }
  pose proof (one_bin_leaf bin_size acc k Fa kd_empty eq_refl tree Ht) as L1.
  destruct (Nat.ltb_spec 1 (kd_leaf_count tree)); [lia|]. subst m'.
  rewrite E, map_length.
  pose proof H as H2. unfold filter_resample in H2. destruct (dist_ok _); [|discriminate]. apply bind_ok in H2. destruct H2 as (acc' & Ha & H2).
  unfold update_stats in H2. cbn [with_parts pf_parts pf_wts] in H2. apply bind_ok in H2. destruct H2 as (pw & _ & H2).
  injection H2 as <-. cbn [pf_parts] in E.
  pose proof (resample_loop_size _ _ _ _ _ _ _ _ _ _ _ Ha) as S. simpl length in S.
  assert (EL : length acc' = length acc) by (rewrite <- (map_length fst acc'), E, map_length; reflexivity).
  lia.
Qed.
End Generic.

(** C109: false.  The filter has converged, all its particles are in one bin:
    resampling asks for the maximum, in every arithmetic. *)
Theorem C109_converged_refuted : forall {T} {A : Arith T} (draws : list Z) (err z : T) (f f' : pfilter T) (k : vec3 Z),
  (0 <= pf_min f <= pf_max f)%Z -> (1 <= pf_max f)%Z ->
  Forall (fun p => kd_key bin_size p = Ok k) (pf_parts f) -> filter_resample draws err z f = Ok f' ->
  Z.of_nat (length (pf_parts f')) = pf_max f.
Proof. intros T A draws err z f f' k M X F H. exact (one_bin_max _ _ _ _ _ _ H M X F). Qed.
Print Assumptions C109_converged_refuted.

Lemma kld_bound_number : forall err z k m, (1 < k)%nat -> kld_bound err z k = Ok m -> m = Ztrunc (kld_number err z k).
Proof.
  intros err z k m K H. unfold kld_bound, cast_unsigned in H.
  match type of H with context [ntrunc ?x] => set (v := x) in H end.
  change (ntrunc v) with (Some (Ztrunc v)) in H. cbv iota in H.
  match type of H with context [if ?b then _ else _] => destruct b end; [|discriminate]. injection H as <-.
  f_equal. unfold v, kld_number. ra. rewrite minus_IZR, <- INR_IZR_INZ. simpl (IZR 1). ring.
Qed.

Lemma asked_spec : forall mx err z acc m, asked mx err z acc m ->
  (if (1 <? occupied_bins (map fst acc))%nat then m = Ztrunc (kld_number err z (occupied_bins (map fst acc))) else m = mx).
Proof.
  intros mx err z acc m (tree & Ht & Hm). apply kd_counts_bins_R in Ht.
  assert (E : kd_leaf_count tree = occupied_bins (map fst acc)).
  { rewrite Ht. unfold occupied_bins. rewrite map_map. f_equal. }
  rewrite E in Hm. destruct (Nat.ltb_spec 1 (occupied_bins (map fst acc))) as [D|D]; [|exact Hm].
  apply kld_bound_number; assumption.
Qed.

(** What holds: exactly as many particles are drawn as needed for "enough", which
    for more than one occupied bin is the KLD bound between the minimum and the maximum. *)
Theorem C109_stopping_rule_partial : forall (draws : list Z) (err z : R) (f f' : pfilter R),
  (pf_min f <= pf_max f)%Z -> (1 <= pf_max f)%Z -> filter_resample draws err z f = Ok f' ->
  drawn_enough (pf_min f) (pf_max f) err z (pf_parts f') /\
  forall j, (j < length (pf_parts f'))%nat -> ~ drawn_enough (pf_min f) (pf_max f) err z (firstn j (pf_parts f')).
Proof.
  intros draws err z f f' M X H. destruct (resample_rule _ _ _ _ _ H X) as (acc & E & (m & Hm & Hs) & Hj).
  rewrite E, map_length. split.
  - apply asked_spec in Hm. unfold drawn_enough. rewrite map_length.
    destruct (Nat.ltb_spec 1 (occupied_bins (map fst acc))) as [D|D]; [|left; lia].
    destruct Hs as [Hs|Hs]; [|left; exact Hs]. right. repeat split; [lia|exact D|lia].
  - intros j Lj. destruct (Hj j Lj) as (m' & Hm' & H1 & H2). apply asked_spec in Hm'. rewrite firstn_map.
    unfold drawn_enough. rewrite map_length, firstn_length_le by lia.
    destruct (Nat.ltb_spec 1 (occupied_bins (map fst (firstn j acc)))) as [D|D]; lia.
Qed.
Print Assumptions C109_stopping_rule_partial.

(** Two particles, at least one and at most four wanted. *)
Definition roomy (x : R) : pfilter R :=
  mkFilter 1 4 still [mkVec3 0 0 0; mkVec3 x 0 0] [1 / 4; 3 / 4] (mkVec3 0 0 0) (mkMat3 0 0 0 0 0 0 0 0 0).

Lemma roomy_ok : forall x, 0 <= x <= 4 -> exists f', filter_resample four_draws 1 0 (roomy x) = Ok f'.
Proof.
  intros x Hx. apply resample_total.
  - unfold distribution, roomy. cbn [pf_parts pf_wts]. split; [reflexivity|]. split.
    + repeat constructor; lra.
    + unfold total. cbn. lra.
  - cbn; lia.
  - cbn; lia.
  - unfold four_draws. cbn [roomy pf_parts length]. repeat constructor; lia.
  - cbn; lia.
  - lra.
  - lra.
  - cbn [roomy pf_max]. apply Rlt_le_trans with (IZR 1000); [lra|apply IZR_le; lia].
  - pose proof PI_RGT_0. pose proof (IZR_le 4 (2 ^ 28) ltac:(lia)).
    constructor; [|constructor; [|constructor]]; cbn [v0 v1 v2]; (split; [apply Rabs_le; lra|split; [apply Rabs_le; lra|lra]]).
Qed.

Lemma key_here : forall x, 0 <= x < 1 / 2 -> kd_key bin_size (mkVec3 x 0 0) = Ok (mkVec3 0 0 0)%Z.
Proof.
  intros x Hx. unfold kd_key, bin_size. cbn [v0 v1 v2]. ra.
  assert (Z0 : Ztrunc (x / (1 / 2)) = 0%Z).
  { rewrite Ztrunc_floor by lra. apply Zfloor_imp. simpl IZR. lra. }
  assert (Z1 : Ztrunc (0 / (1 / 2)) = 0%Z).
  { replace (0 / (1 / 2)) with (IZR 0) by (simpl; lra). apply Ztrunc_IZR. }
  assert (Z2 : Ztrunc (0 / (2671 / 10000)) = 0%Z).
  { replace (0 / (2671 / 10000)) with (IZR 0) by (simpl; lra). apply Ztrunc_IZR. }
  rewrite !cast_int32_ok by (rewrite ?Z0, ?Z1, ?Z2; lia). rewrite Z0, Z1, Z2. reflexivity.
Qed.

(** A converged filter: both particles within half a metre; four particles are drawn. *)
Example C109_converged_nonvacuous : exists f', filter_resample four_draws 1 0 (roomy (1 / 4)) = Ok f' /\ Forall (fun p => kd_key bin_size p = Ok (mkVec3 0 0 0)%Z) (pf_parts (roomy (1 / 4))) /\ (pf_min (roomy (1 / 4)) < pf_max (roomy (1 / 4)))%Z /\ length (pf_parts f') = 4%nat.
Proof.
  destruct (roomy_ok (1 / 4)) as (f' & H); [lra|]. exists f'. split; [exact H|].
  assert (F : Forall (fun p => kd_key bin_size p = Ok (mkVec3 0 0 0)%Z) (pf_parts (roomy (1 / 4)))).
  { constructor; [apply key_here; lra|]. constructor; [apply key_here; lra|constructor]. }
  split; [exact F|]. split; [cbn; lia|].
  pose proof (C109_converged_refuted four_draws 1 0 (roomy (1 / 4)) f' _ ltac:(cbn; lia) ltac:(cbn; lia) F H) as L.
  cbn [roomy pf_max] in L. lia.
Qed.

(** Two bins and a loose bound: two particles are enough. *)
Example C109_stopping_rule_nonvacuous : exists f', filter_resample four_draws 1 0 (roomy 4) = Ok f' /\ length (pf_parts f') = 2%nat.
Proof.
  destruct (roomy_ok 4) as (f' & H); [lra|]. exists f'. split; [exact H|].
  destruct (C109_stopping_rule_partial four_draws 1 0 (roomy 4) f' ltac:(cbn; lia) ltac:(cbn; lia) H) as (E & N).
  pose proof (resample_spec four_draws 1 0 (roomy 4)) as S. rewrite H in S.
  destruct S as (S & _ & s & used & (rest & U) & Fp & _); [cbn; lia|cbn; lia|reflexivity|cbn; repeat constructor; lia|cbn; lia|].
  cbn [roomy pf_min pf_max pf_parts] in *.
  inversion Fp as [E1 E2|i p us ps Gp Fp' E1 E2]; subst used.
  { rewrite <- E2 in S. cbn in S. lia. }
  injection U as <- U. cbn in Gp. injection Gp as <-.
  inversion Fp' as [E3 E4|i' p' us' ps' Gp' Fp'' E3 E4]; subst us.
  { subst ps. rewrite <- E2 in E. destruct E as [E|(_ & E & _)]; [cbn in E; lia|].
    unfold occupied_bins in E. cbn [map] in E. unfold distinct in E. cbn [nodup in_dec length] in E. cbn in E. lia. }
  injection U as <- U. cbn in Gp'. injection Gp' as <-. subst ps. rewrite <- E2 in *.
  destruct ps' as [|p3 ps3]; [reflexivity|]. exfalso. apply (N 2%nat); [cbn [length]; lia|]. cbn [firstn].
  assert (B : occupied_bins [mkVec3 0 0 0; mkVec3 4 0 0] = 2%nat).
  { unfold occupied_bins, bin_of. cbn [map v0 v1 v2].
    replace (0 / (1 / 2)) with (IZR 0) by (simpl; lra). replace (0 / (2671 / 10000)) with (IZR 0) by (simpl; lra).
    replace (4 / (1 / 2)) with (IZR 8) by lra. rewrite !Ztrunc_IZR. reflexivity. }
  right. rewrite B. cbn [length]. split; [lia|]. split; [lia|].
  assert (K : Ztrunc (kld_number 1 0 2) = 0%Z).
  { unfold kld_number. simpl (INR 2). rewrite Rmult_0_r, Rplus_0_r.
    match goal with |- Ztrunc ?v = _ => replace v with (343 / 1458) by field end.
    rewrite Ztrunc_floor by lra. apply Zfloor_imp. simpl IZR. lra. }
  rewrite K. lia.
Qed.
