(** Proofs about class Scan. *)

From Coq Require Import ZArith Reals List Bool Lra Lia.
From Verif Require Import Outcome Arith TypesModel ScanModel SpecStats SumLemmas SpecPose SpecScan RTactics.
Import ListNotations.

Section Generic.
Context {T : Type} {A : Arith T}.

Definition cache_ok (s : scan T) : Prop :=
  s_dirty s = false -> s_bary s = s_bary (scan_update s).

Lemma scan_update_bary_ext : forall s s' : scan T,
  s_pose s = s_pose s' -> s_pts s = s_pts s' ->
  s_bary (scan_update s) = s_bary (scan_update s').
Proof. intros s s' H1 H2. unfold scan_update. rewrite H1, H2. reflexivity. Qed.

Lemma scan_step_ok : forall s o, cache_ok s -> cache_ok (scan_step s o).
Proof.
  intros s o H. destruct o; intro D; try discriminate D.
  cbn [scan_step] in *. unfold scan_get_bary in *.
  destruct (s_dirty s) eqn:E; cbn in D |- *.
  - reflexivity.
  - exact (H E).
Qed.

Lemma scan_fold_inv : forall ops s, cache_ok s ->
  let s' := fold_left scan_step ops s in
  cache_ok s' /\ s_id s' = s_id s /\
  s_pose s' = last_pose ops (s_pose s) /\ s_pts s' = last_points ops (s_pts s).
Proof.
  induction ops as [|o ops IH]; intros s H.
  - cbn. auto.
  - cbn [fold_left]. destruct (IH _ (scan_step_ok s o H)) as (I1 & I2 & I3 & I4).
    split; [exact I1|]. rewrite I2, I3, I4.
    destruct o; cbn [scan_step last_pose last_points scan_set_pose scan_set_points s_id s_pose s_pts].
    + auto.
    + auto.
    + unfold scan_get_bary. destruct (s_dirty s); cbn; auto.
Qed.

(** The result of getBarycenterPose never depends on the cache. *)
Lemma scan_bary_fresh : forall id ops,
  fst (scan_get_bary (scan_run id ops)) =
  s_bary (scan_update (mkScan id true (last_pose ops pose0) pose0 (last_points ops []))).
Proof.
  intros id ops. unfold scan_run.
  assert (H0 : cache_ok (scan_new id)) by (intro D; discriminate D).
  destruct (scan_fold_inv ops _ H0) as (I1 & I2 & I3 & I4).
  set (s' := fold_left scan_step ops (scan_new id)) in *.
  cbn [fst scan_get_bary]. unfold scan_get_bary.
  transitivity (s_bary (scan_update s')).
  - destruct (s_dirty s') eqn:E; [reflexivity|exact (I1 E)].
  - apply scan_update_bary_ext; [exact I3|exact I4].
Qed.

Lemma scan_run_id : forall id ops, s_id (scan_run id ops) = id.
Proof.
  intros id ops. unfold scan_run.
  assert (H0 : cache_ok (scan_new id)) by (intro D; discriminate D).
  exact (proj1 (proj2 (scan_fold_inv ops _ H0))).
Qed.
Lemma scan_run_pose : forall id ops, s_pose (scan_run id ops) = last_pose ops pose0.
Proof.
  intros id ops. unfold scan_run.
  assert (H0 : cache_ok (scan_new id)) by (intro D; discriminate D).
  exact (proj1 (proj2 (proj2 (scan_fold_inv ops _ H0)))).
Qed.
Lemma scan_run_pts : forall id ops, s_pts (scan_run id ops) = last_points ops [].
Proof.
  intros id ops. unfold scan_run.
  assert (H0 : cache_ok (scan_new id)) by (intro D; discriminate D).
  exact (proj2 (proj2 (proj2 (scan_fold_inv ops _ H0)))).
Qed.
End Generic.

Local Open Scope R_scope.

Lemma bary_fold : forall (c s : R) pts (acc : point R),
  fold_left (fun (a : point R) p =>
     mkPoint (px a + (c * px p - s * py p)) (py a + (s * px p + c * py p))) pts acc =
  mkPoint (px acc + (c * sumf px pts - s * sumf py pts))
          (py acc + (s * sumf px pts + c * sumf py pts)).
Proof.
  induction pts as [|p pts IH]; intros acc; cbn [fold_left sumf].
  - destruct acc; cbn. f_equal; ring.
  - rewrite IH. cbn. f_equal; ring.
Qed.

Lemma scan_update_real : forall s : scan R,
  s_bary (scan_update s) =
  match s_pts s with
  | [] => s_pose s
  | _ => let q := act (s_pose s) (mean_point (s_pts s)) in
         mkPose (px q) (py q) (poth (s_pose s))
  end.
Proof.
  intros s. unfold scan_update. ra.
  destruct (s_pts s) as [|p l] eqn:E; [reflexivity|].
  cbn [s_bary]. rewrite bary_fold. unfold act, mean_point, average. cbn [px py pox poy poth point0].
  rewrite <- INR_IZR_INZ.
  assert (Hn : INR (length (p :: l)) <> 0) by (apply not_0_INR; discriminate).
  unfold point0; cbn [px py]. ra. f_equal; field; exact Hn.
Qed.

Theorem barycenter_spec : forall id (ops : list (scan_op R)),
  let p := last_pose ops pose0 in
  let pts := last_points ops [] in
  let b := fst (scan_get_bary (scan_run id ops)) in
  (pts = [] -> b = p) /\
  (pts <> [] -> mkPoint (pox b) (poy b) = act p (mean_point pts) /\ poth b = poth p).
Proof.
  intros id ops p pts b. unfold b. rewrite scan_bary_fresh, scan_update_real.
  cbn [s_pts s_pose]. fold p. fold pts.
  destruct pts as [|q l]; split; intro H; try congruence.
  cbn [pox poy poth]. split; [|reflexivity]. destruct (act p _); reflexivity.
Qed.

Definition demo_history : list (scan_op R) :=
  [SSetPoints [mkPoint 1 0; mkPoint 3 0]; SGetBary; SSetPose (mkPose 5 5 0); SGetBary].

Lemma demo_history_bary : fst (scan_get_bary (scan_run 0 demo_history)) = mkPose 7 5 0.
Proof.
  rewrite scan_bary_fresh, scan_update_real. unfold demo_history.
  cbn [last_pose last_points s_pts s_pose]. unfold act, mean_point, average. cbn [sumf length].
  cbn [px py pox poy poth]. rewrite cos_0, sin_0. simpl INR. f_equal; field.
Qed.
