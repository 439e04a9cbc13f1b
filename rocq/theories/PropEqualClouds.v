(** Property C172: what a measurement of the filter depends on. *)

From Coq Require Import ZArith Reals List Bool Lia Lra Permutation.
From Verif Require Import Outcome Arith TypesModel MotionModel FilterModel SpecFilter SpecEqualClouds RTactics
  NdtProofs FilterProofs OccProofs.
Import ListNotations.
Local Open Scope R_scope.

Lemma fold_perm {X Y} (step : Y -> X -> Y) : (forall a x y, step (step a x) y = step (step a y) x) ->
  forall l l', Permutation l l' -> forall a, fold_left step l a = fold_left step l' a.
Proof.
  intros C l l' P. induction P as [|x l l' P IH|x y l|l l' l'' P IH P' IH']; intro a; cbn [fold_left].
  - reflexivity.
  - apply IH.
  - rewrite C. reflexivity.
  - rewrite IH. apply IH'.
Qed.

Lemma map_snd_combine {X Y} : forall (l : list X) (l' : list Y), length l' = length l -> map snd (combine l l') = l'.
Proof.
  induction l as [|x l IH]; intros [|y l'] L; try discriminate L; [reflexivity|]. cbn [combine map snd]. rewrite IH by (injection L; auto). reflexivity.
Qed.

Lemma sums_commute (a : @sums R) x y : sums_add (sums_add a (fst x) (snd x)) (fst y) (snd y) = sums_add (sums_add a (fst y) (snd y)) (fst x) (snd x).
Proof. unfold sums_add. ra. cbn [su_mean su_cos su_sin su_xx su_xy su_yy v0 v1 v2]. f_equal; try ring. f_equal; ring. Qed.

Lemma add_commute (a x y : R) : nadd (nadd a x) y = nadd (nadd a y) x.
Proof. ra. ring. Qed.

Lemma var_commute (m a : R) (x y : vec3 R * R) :
  let d q := angle_diff (v2 (fst q)) m in
  ((a + snd x * d x * d x) + snd y * d y * d y)%num = ((a + snd y * d y * d y) + snd x * d x * d x)%num.
Proof. cbv zeta. ra. ring. Qed.

(** The statistics of two filters with the same (particle, weight) pairs. *)
Lemma stats_order (f g f' g' : pfilter R) : length (pf_wts f) = length (pf_parts f) -> length (pf_wts g) = length (pf_parts g) ->
  same_cloud f g -> pf_cov f = pf_cov g -> update_stats f = Ok f' -> update_stats g = Ok g' -> same_cloud f' g' /\ same_estimate f' g'.
Proof.
  intros Lf Lg P C Hf Hg. unfold same_cloud in P.
  assert (W : Permutation (pf_wts f) (pf_wts g)).
  { apply (Permutation_map snd) in P. rewrite !map_snd_combine in P by congruence. exact P. }
  unfold update_stats in Hf, Hg. rewrite <- (fold_perm nadd add_commute _ _ W) in Hg.
  set (t := fold_left nadd (pf_wts f) nzero) in *. clearbody t.
  apply bind_ok in Hf. destruct Hf as (pw & Wf & Hf). apply with_weights_inv in Wf. destruct Wf as [-> _].
  apply bind_ok in Hg. destruct Hg as (pw & Wg & Hg). apply with_weights_inv in Wg. destruct Wg as [-> _].
  assert (Q : Permutation (combine (pf_parts f) (map (fun w => (w / t)%num) (pf_wts f))) (combine (pf_parts g) (map (fun w => (w / t)%num) (pf_wts g)))).
  { assert (E : forall (ps : list (vec3 R)) (ws : list R), combine ps (map (fun w => (w / t)%num) ws) = map (fun q => (fst q, (snd q / t)%num)) (combine ps ws)).
    { induction ps as [|p ps IH]; intros [|w ws]; try reflexivity. cbn [map combine]. rewrite IH. reflexivity. }
    rewrite !E. apply Permutation_map. exact P. }
  rewrite <- (fold_perm (fun s q => sums_add s (fst q) (snd q)) sums_commute _ _ Q) in Hg. rewrite <- C in Hg.
  set (mth := natan2 _ _) in *.
  rewrite <- (fold_perm (fun acc q => (acc + snd q * angle_diff (v2 (fst q)) mth * angle_diff (v2 (fst q)) mth)%num) (var_commute mth) _ _ Q) in Hg.
  injection Hf as <-. injection Hg as <-. split; [exact Q|]. split; reflexivity.
Qed.

(** C172: the order in which the particles are stored has no influence on what a
    measurement does to their weights, and on the estimate. *)
Theorem C172_order (score : pose R -> outcome R) (f g f' g' : pfilter R) :
  length (pf_wts f) = length (pf_parts f) -> length (pf_wts g) = length (pf_parts g) ->
  Permutation (pf_parts f) (pf_parts g) -> pf_cov f = pf_cov g ->
  filter_measure score f = Ok f' -> filter_measure score g = Ok g' -> same_cloud f' g' /\ same_estimate f' g'.
Proof.
  intros Lf Lg P C Hf Hg. unfold filter_measure in Hf, Hg. rewrite Lf, Nat.ltb_irrefl in Hf. rewrite Lg, Nat.ltb_irrefl in Hg.
  apply bind_ok in Hf. destruct Hf as (sf & Sf & Hf). rewrite <- Lf, skipn_all, app_nil_r in Hf.
  apply bind_ok in Hg. destruct Hg as (sg & Sg & Hg). rewrite <- Lg, skipn_all, app_nil_r in Hg.
  set (sc := fun p : vec3 R => match score (mkPose (v0 p) (v1 p) (v2 p)) with Ok s => s | Fault _ => 0 end).
  assert (E : forall ps ss, mapM (fun p => score (mkPose (v0 p) (v1 p) (v2 p))) ps = Ok ss -> ss = map sc ps).
  { intros ps ss H. apply mapM_Forall2 in H. induction H as [|p s ps ss H F IH]; [reflexivity|]. cbn [map]. rewrite <- IH. unfold sc. rewrite H. reflexivity. }
  apply E in Sf, Sg. subst sf sg.
  refine (stats_order _ _ _ _ _ _ _ _ Hf Hg); cbn [with_parts pf_parts pf_wts pf_cov].
  - apply map_length.
  - apply map_length.
  - unfold same_cloud. cbn [with_parts pf_parts pf_wts].
    assert (K : forall ps, combine ps (map sc ps) = map (fun p => (p, sc p)) ps) by (induction ps as [|p ps IH]; [reflexivity|]; cbn [map combine]; rewrite IH; reflexivity).
    rewrite !K. apply Permutation_map. exact P.
  - exact C.
Qed.

(** C172: only the ratios of the scores matter. *)
Theorem C172_scale (score score' : pose R -> outcome R) (c : R) (f f1 f2 : pfilter R) :
  c <> 0 -> (forall p s, score p = Ok s -> score' p = Ok (c * s)) ->
  length (pf_wts f) = length (pf_parts f) -> filter_measure score f = Ok f1 -> filter_measure score' f = Ok f2 -> f2 = f1.
Proof.
  intros Hc Hs L H1 H2. unfold filter_measure in H1, H2. rewrite L, Nat.ltb_irrefl in H1, H2.
  apply bind_ok in H1. destruct H1 as (s1 & S1 & H1). apply bind_ok in H2. destruct H2 as (s2 & S2 & H2).
  rewrite <- L, skipn_all, app_nil_r in H1, H2.
  assert (E : s2 = map (Rmult c) s1).
  { clear H1 H2 L. apply mapM_Forall2 in S1, S2. revert s2 S2. induction S1 as [|p s ps ss H F IH]; intros s2 S2; inversion S2 as [|p2 t ps2 ts H' F']; subst; [reflexivity|].
    cbn [map]. rewrite (IH _ F'). rewrite (Hs _ _ H) in H'. injection H' as <-. reflexivity. }
  subst s2. assert (U : update_stats (with_parts f (pf_parts f) (map (Rmult c) s1)) = update_stats (with_parts f (pf_parts f) s1)).
  { unfold update_stats. cbn [with_parts pf_parts pf_wts pf_cov pf_min pf_max pf_motion].
    assert (T : fold_left nadd (map (Rmult c) s1) nzero = c * fold_left nadd s1 nzero).
    { change (fold_left nadd (map (Rmult c) s1) nzero) with (fold_left Rplus (map (Rmult c) s1) 0). change (fold_left nadd s1 nzero) with (fold_left Rplus s1 0).
      rewrite !fold_total, !Rplus_0_l. clear. induction s1 as [|s l IH]; cbn [map total fold_right]; [unfold total; cbn; ring|]. unfold total in *. cbn [fold_right] in *. rewrite IH. ring. }
    rewrite T. set (t := fold_left nadd s1 nzero). clearbody t.
    assert (M : map (fun w => (w / (c * t))%num) (map (Rmult c) s1) = map (fun w => (w / t)%num) s1).
    { rewrite map_map. apply map_ext. intro w. ra. destruct (Req_dec t 0) as [->|N].
      - unfold Rdiv. rewrite Rmult_0_r, Rinv_0. ring.
      - field. auto. }
    change (@nmul R RA c t) with (c * t) in *. rewrite M. reflexivity. }
  rewrite U, H1 in H2. congruence.
Qed.

(** The hypotheses hold of two particles stored in either order: the weights
    after the measurement are 1/3 and 2/3, and the mean is at x = 2/3. *)
Example C172_nonvacuous :
  let a := mkVec3 0 0 0 in let b := mkVec3 1 0 0 in
  let cloud ps := mkFilter 2 10 (mkMotion 0 0 0 0 0) ps [1 / 2; 1 / 2] vec3_zero mat3_zero in
  let score k (p : pose R) := Ok (k * (pox p + 1)) in
  exists f' g', filter_measure (score 1) (cloud [a; b]) = Ok f' /\ filter_measure (score 1) (cloud [b; a]) = Ok g' /\
    filter_measure (score 5) (cloud [a; b]) = Ok f' /\ same_cloud f' g' /\ same_estimate f' g' /\
    pf_wts f' = [1 / 3; 2 / 3] /\ pf_wts g' = [2 / 3; 1 / 3] /\ v0 (pf_mean f') = 2 / 3.
Proof.
  cbv zeta. set (a := mkVec3 0 0 0). set (b := mkVec3 1 0 0).
  set (cloud := fun ps => mkFilter 2 10 (mkMotion 0 0 0 0 0) ps [1 / 2; 1 / 2] vec3_zero mat3_zero).
  set (score := fun k (p : pose R) => @Ok R (k * (pox p + 1))).
  change (exists f' g', filter_measure (score 1) (cloud [a; b]) = Ok f' /\ filter_measure (score 1) (cloud [b; a]) = Ok g' /\
    filter_measure (score 5) (cloud [a; b]) = Ok f' /\ same_cloud f' g' /\ same_estimate f' g' /\
    pf_wts f' = [1 / 3; 2 / 3] /\ pf_wts g' = [2 / 3; 1 / 3] /\ v0 (pf_mean f') = 2 / 3).
  assert (D : forall k ps, length ps = 2%nat -> exists f', filter_measure (score k) (cloud ps) = Ok f').
  { intros k [|p [|q [|]]] L; try discriminate L. eexists. reflexivity. }
  destruct (D 1 [a; b] eq_refl) as (f' & Hf). destruct (D 1 [b; a] eq_refl) as (g' & Hg). destruct (D 5 [a; b] eq_refl) as (h & Hh).
  assert (h = f').
  { refine (C172_scale (score 1) (score 5) 5 (cloud [a; b]) f' h _ _ eq_refl Hf Hh); [lra|]. unfold score. intros p s H. injection H as <-. f_equal. ring. }
  subst h. exists f', g'. split; [exact Hf|]. split; [exact Hg|]. split; [exact Hh|].
  destruct (C172_order (score 1) (cloud [a; b]) (cloud [b; a]) f' g' eq_refl eq_refl (perm_swap _ _ _) eq_refl Hf Hg) as [S E].
  split; [exact S|]. split; [exact E|].
  assert (V : forall ps f0, length ps = 2%nat -> filter_measure (score 1) (cloud ps) = Ok f0 ->
    let ws := map (fun p => pox p + 1) (map (fun p : vec3 R => mkPose (v0 p) (v1 p) (v2 p)) ps) in
    pf_wts f0 = map (fun w => 1 * w / (0 + 1 * nth 0 ws 0 + 1 * nth 1 ws 0)) ws /\
    v0 (pf_mean f0) = 0 + (nth 0 (pf_wts f0) 0 * v0 (nth 0 ps a)) + (nth 1 (pf_wts f0) 0 * v0 (nth 1 ps a))).
  { intros [|p [|q [|]]] f0 L H; try discriminate L. unfold filter_measure in H. injection H as <-. split; reflexivity. }
  destruct (V [a; b] f' eq_refl Hf) as [Wf Mf]. destruct (V [b; a] g' eq_refl Hg) as [Wg _].
  cbn [map nth a b pox v0 v1 v2] in Wf, Mf, Wg.
  assert (W1 : pf_wts f' = [1 / 3; 2 / 3]) by (rewrite Wf; repeat (f_equal; try lra)).
  split; [exact W1|]. split; [rewrite Wg; repeat (f_equal; try lra)|]. rewrite Mf, W1. unfold a, b. cbn [nth v0]. lra.
Qed.
