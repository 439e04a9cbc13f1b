(** Property C174: steps add up. *)

From Coq Require Import ZArith Reals List Bool Lia Lra.
From Flocq Require Import Core.
From Verif Require Import Outcome Arith TypesModel MotionModel FilterModel SpecPose SpecLaser SpecFilter SpecReckoning RTactics
  NdtProofs ConstraintProofs FilterProofs SafeProofs FilterWitness PropFilter.
Import ListNotations.
Local Open Scope R_scope.

(** The calls update(dx, dy, dth) (particle_filter.cpp:71-76) for the steps. *)
Definition moves (normal : normal_source R) (steps : list (pose R)) : list (filter_op R) :=
  map (fun d => FUpdate normal (pox d) (poy d) (poth d)) steps.

Lemma compose_same p q d : same_pose p q -> same_pose (compose p d) (compose q d).
Proof.
  intros (X & Y & k & K). unfold same_pose, compose, act. cbn [pox poy poth px py]. rewrite X, Y, K, cos_turn, sin_turn.
  split; [reflexivity|]. split; [reflexivity|]. exists k. ring.
Qed.
Lemma after_same steps : forall p q, same_pose p q -> same_pose (after_steps steps p) (after_steps steps q).
Proof. induction steps as [|d l IH]; intros p q H; [exact H|]. cbn. apply IH. apply compose_same. exact H. Qed.
Lemma same_pose_trans p q r : same_pose p q -> same_pose q r -> same_pose p r.
Proof. intros (A & B & C) (D & E & F). split; [congruence|]. split; [congruence|]. eapply same_heading_trans; eassumption. Qed.

Lemma update_parts normal dx dy dth (f f' : pfilter R) : filter_update normal dx dy dth f = Ok f' ->
  pf_parts f' = motion_sample normal (pf_motion f) dx dy dth (pf_parts f).
Proof.
  unfold filter_update, update_stats. intro H. apply bind_ok in H. destruct H as (pw & _ & H). injection H as <-. reflexivity.
Qed.

(** Updating never fails. *)
Theorem C174_moves_ok : forall {T} {A : Arith T} (normal : normal_source T) (steps : list (pose T)) (f : pfilter T), length (pf_wts f) = length (pf_parts f) ->
  exists f', filter_run f (map (fun d => FUpdate normal (pox d) (poy d) (poth d)) steps) = Ok f'.
Proof.
  intros T A normal steps. induction steps as [|d l IH]; intros f L; [exists f; reflexivity|].
  unfold filter_run. cbn [map foldM filter_step]. unfold filter_update.
  match goal with |- context [update_stats ?x] => destruct (SafeProofs.update_stats_ok x) as (g & E & Lg & P & _) end;
    [cbn [pf_wts pf_parts with_parts]; unfold motion_sample; rewrite SafeProofs.map_i_length; exact L|].
  rewrite E. cbn [bind]. apply IH. rewrite Lg, P. cbn [pf_wts pf_parts with_parts]. unfold motion_sample. rewrite SafeProofs.map_i_length. exact L.
Qed.

(** C174: false as stated, because steps of at most a centimetre lose their
    direction: a robot that backs up half a centimetre is taken to drive forwards. *)
Theorem C174_steps_refuted : exists (normal : normal_source R) steps (f f' : pfilter R) p q,
  (forall i mean sigma, normal i mean sigma = mean) /\ filter_run f (moves normal steps) = Ok f' /\
  pf_parts f = [p] /\ pf_parts f' = [q] /\ pox (after_steps steps (pose_of p)) = - / 200 /\ v0 q = / 200.
Proof.
  set (d := mkPose (- / 200) 0 0). set (f := mkFilter 1 10 (mkMotion 0 0 0 0 0) [mkVec3 0 0 0] [1] vec3_zero mat3_zero).
  assert (N : forall i mean sigma, no_noise i mean sigma = mean) by reflexivity.
  destruct (C174_moves_ok no_noise [d] f eq_refl) as (f' & W). pose proof W as E. unfold filter_run in E. cbn [map foldM filter_step] in E.
  apply bind_ok in E. destruct E as (g & E & G). injection G as ->. pose proof (update_parts _ _ _ _ _ _ E) as P.
  pose proof (C50_short_motion no_noise (pf_motion f) (pox d) (poy d) (poth d) (pf_parts f) N) as S.
  assert (Q : sqrt (pox d * pox d + poy d * poy d) = / 200).
  { cbn [d pox poy]. replace (- / 200 * - / 200 + 0 * 0) with (/ 200 * / 200) by ring. apply sqrt_square. lra. }
  rewrite Q in S. specialize (S ltac:(lra)). rewrite <- P in S. inversion S as [|p q ? l (M & _) F Ep Eq]; subst. inversion F as [Hn|]; subst.
  exists no_noise, [d], f, f', (mkVec3 0 0 0), q. split; [exact N|]. split; [exact W|].
  split; [reflexivity|]. split; [symmetry; assumption|]. unfold act, pose_of in *. cbn [v0 v1 v2 pox poy poth px py] in M. rewrite cos_0, sin_0 in M. injection M as Mx My.
  split.
  - cbn. unfold compose, act. cbn. rewrite cos_0, sin_0. lra.
  - rewrite Mx. ring.
Qed.
Print Assumptions C174_steps_refuted.

(** C174 for steps of more than a centimetre: without noise every particle arrives
    where the path leads from its first position. *)
Theorem C174_steps_partial : forall (normal : normal_source R) steps (f f' : pfilter R),
  (forall i mean sigma, normal i mean sigma = mean) -> Forall long_step steps -> filter_run f (moves normal steps) = Ok f' ->
  Forall2 (fun p q => same_pose (pose_of q) (after_steps steps (pose_of p))) (pf_parts f) (pf_parts f').
Proof.
  intros normal steps. induction steps as [|d l IH]; intros f f' N L H.
  - cbn in H. injection H as <-. induction (pf_parts f) as [|p ps IHp]; constructor; [|exact IHp]. split; [reflexivity|]. split; [reflexivity|]. apply same_heading_refl.
  - unfold filter_run, moves in H. cbn [map foldM filter_step] in H. apply bind_ok in H. destruct H as (g & U & H).
    inversion L as [|? ? Ld Ll]; subst. specialize (IH g f' N Ll H). apply update_parts in U.
    pose proof (C50_noise_free_motion normal (pf_motion f) (pox d) (poy d) (poth d) (pf_parts f) N Ld) as S. rewrite <- U in S.
    clear U H L Ll Ld. revert IH. generalize (pf_parts f'). induction S as [|p q ps qs (M & _ & Hh) S IHs]; intros rs F; inversion F as [|? r ? rs' R F']; subst; constructor; [|apply IHs; exact F'].
    eapply same_pose_trans; [exact R|]. change (after_steps (d :: l) (pose_of p)) with (after_steps l (compose (pose_of p) d)). apply after_same.
    unfold same_pose, compose. rewrite <- M. cbn [pox poy poth px py pose_of]. auto.
Qed.
Print Assumptions C174_steps_partial.

(** A path of steps of a metre, turning by a quarter each time. *)
Example C174_nonvacuous : let steps := repeat (mkPose 1 0 (PI / 2)) 4 in
  let f := mkFilter 2 10 (mkMotion 0 0 0 0 0) [mkVec3 0 0 0; mkVec3 5 1 0] [1 / 2; 1 / 2] vec3_zero mat3_zero in
  Forall long_step steps /\ (exists f', filter_run f (moves no_noise steps) = Ok f') /\ same_pose (after_steps steps (mkPose 5 1 0)) (mkPose 5 1 0).
Proof.
  cbv zeta. split; [|split].
  - repeat constructor; unfold long_step; cbn [pox poy]; replace (1 * 1 + 0 * 0) with (1 * 1) by ring; rewrite sqrt_square; lra.
  - apply C174_moves_ok. reflexivity.
  - unfold after_steps. cbn [repeat fold_left]. unfold compose, act. cbn [pox poy poth px py].
    replace (0 + PI / 2 + PI / 2 + PI / 2) with (PI / 2 + PI) by lra. replace (0 + PI / 2 + PI / 2) with PI by lra. replace (0 + PI / 2) with (PI / 2) by ring.
    rewrite neg_cos, neg_sin, cos_PI, sin_PI, cos_PI2, sin_PI2, cos_0, sin_0. unfold same_pose. cbn [pox poy poth].
    split; [ring|]. split; [ring|]. exists 1%Z. lra.
Qed.
