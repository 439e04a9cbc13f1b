(** Property C144: what the random draws of the particle filter are used for; the
    headings of C114. *)

From Coq Require Import ZArith Reals List Bool Lia Lra.
From Flocq Require Import Core BinarySingleNaN.
From Verif Require Import Outcome Arith TypesModel RTactics B64Lemmas SpecPose AngleProofs MotionModel FilterModel MotionProofs
  SpecAngle64 PropAngle64 PropSingle SpecDrawn.
Import ListNotations.
Local Open Scope R_scope.

(** Draw number i of normal distributions, from standard normal numbers [z]. *)
Definition normal_from (z : nat -> R) : normal_source R := fun i mean sigma => mean + sigma * z i.

Definition triples (n k : nat) : list (nat * nat * nat) := map (fun j => (3 * j, 3 * j + 1, 3 * j + 2)%nat) (seq k n).

Lemma flat_triples : forall n k, flat_map (fun d : nat * nat * nat => let '(a, b, c) := d in [a; b; c]) (triples n k) = seq (3 * k) (3 * n).
Proof.
  induction n as [|n IH]; intro k; [reflexivity|]. unfold triples in *. cbn [seq map flat_map]. rewrite IH.
  replace (3 * S n)%nat with (S (S (S (3 * n)))) by lia. cbn [seq app].
  replace (3 * k + 1)%nat with (S (3 * k)) by lia. replace (3 * k + 2)%nat with (S (S (3 * k))) by lia.
  replace (3 * S k)%nat with (S (S (S (3 * k)))) by lia. reflexivity.
Qed.

Lemma triples_own : forall n, own_draws n (triples n 0).
Proof.
  intro n. split; [unfold triples; rewrite map_length, seq_length; reflexivity|]. rewrite flat_triples. apply seq_NoDup.
Qed.

Lemma map_i_triples : forall (X Y : Type) (f : nat -> X -> Y) (P : X -> nat * nat * nat -> Y -> Prop) l i,
  (forall j x, P x (3 * j, 3 * j + 1, 3 * j + 2)%nat (f j x)) ->
  Forall2 (fun xd y => P (fst xd) (snd xd) y) (combine l (triples (length l) i)) (map_i f i l).
Proof.
  intros X Y f P l i H. revert i. induction l as [|x l IH]; intro i; [constructor|].
  unfold triples in *. cbn [length seq map combine map_i]. constructor; [apply H|apply IH].
Qed.

Lemma splits_mean : forall dx dy dth trans rot1 rot2 : R, motion_mean dx dy dth = (trans, rot1, rot2) -> splits dx dy dth trans rot1 rot2.
Proof.
  intros dx dy dth trans rot1 rot2 H. unfold motion_mean in H. ra_in H. injection H as Et E1 E2. subst trans. split; [reflexivity|].
  destruct (Ratan2_polar dy dx) as [C S]. split; [|split].
  - intro L. rewrite Rlt_bool_t in E1 by lra. subst rot1. split; assumption.
  - intro L. rewrite Rlt_bool_f in E1 by lra. symmetry. exact E1.
  - rewrite E1 in E2. subst rot2. unfold angle_diff. ra. destruct (normalize_angle_spec (dth - rot1)) as [_ [k Hk]].
    exists k. rewrite Hk. ring.
Qed.

Lemma deviations_sigmas : forall (m : motion_params R) (dx dy dth trans rot1 rot2 s1 s2 s3 : R),
  motion_mean dx dy dth = (trans, rot1, rot2) -> motion_sigmas m dx dy dth = (s1, s2, s3) ->
  deviations (mo_a1 m) (mo_a2 m) (mo_a3 m) (mo_a4 m) trans rot1 rot2 s1 s2 s3.
Proof.
  intros m dx dy dth trans rot1 rot2 s1 s2 s3 H1 H2. unfold motion_sigmas in H2. rewrite H1 in H2. ra_in H2. injection H2 as <- <- <-.
  exists (fold_turn rot1), (fold_turn rot2). split; [apply fold_turn_spec|]. split; [apply fold_turn_spec|].
  repeat split; f_equal; ring.
Qed.

(** C144: exact arithmetic, every motion: draws of a motion update. *)
Theorem C144_update : forall n : nat, exists ds, own_draws n ds /\
  forall (z : nat -> R) (dx dy dth : R) (f f' : pfilter R),
  length (pf_parts f) = n -> filter_update (normal_from z) dx dy dth f = Ok f' ->
  exists trans rot1 rot2 s_rot1 s_trans s_rot2, splits dx dy dth trans rot1 rot2 /\
    deviations (mo_a1 (pf_motion f)) (mo_a2 (pf_motion f)) (mo_a3 (pf_motion f)) (mo_a4 (pf_motion f)) trans rot1 rot2 s_rot1 s_trans s_rot2 /\
    Forall2 (fun pd q => let '(p, (a, b, c)) := pd in walks p (rot1 + s_rot1 * z a) (trans + s_trans * z b) (rot2 + s_rot2 * z c) q)
      (combine (pf_parts f) ds) (pf_parts f').
Proof.
  intro n. exists (triples n 0). split; [apply triples_own|]. intros z dx dy dth f f' L H.
  destruct (motion_mean dx dy dth) as [[trans rot1] rot2] eqn:Em. destruct (motion_sigmas (pf_motion f) dx dy dth) as [[s1 s2] s3] eqn:Es.
  exists trans, rot1, rot2, s1, s2, s3. split; [apply splits_mean; exact Em|]. split; [apply (deviations_sigmas _ dx dy dth); assumption|].
  unfold filter_update in H. apply update_stats_parts in H. destruct H as (-> & _). cbn [with_parts pf_parts].
  unfold motion_sample. rewrite Em, Es. subst n.
  enough (W : Forall2 (fun xd q => (fun p d q => let '(a, b, c) := d in walks p (rot1 + s1 * z a) (trans + s2 * z b) (rot2 + s3 * z c) q) (fst xd) (snd xd) q)
     (combine (pf_parts f) (triples (length (pf_parts f)) 0)) (map_i (sample_one (normal_from z) (trans, rot1, rot2) (s1, s2, s3)) 0 (pf_parts f))).
  - revert W. generalize (combine (pf_parts f) (triples (length (pf_parts f)) 0)) as l.
    generalize (map_i (sample_one (normal_from z) (trans, rot1, rot2) (s1, s2, s3)) 0 (pf_parts f)) as k.
    induction 1 as [|[p [[a b] c]] q l k W _ IH]; constructor; [exact W|exact IH].
  - refine (map_i_triples _ _ _ (fun p d q => let '(a, b, c) := d in walks p (rot1 + s1 * z a) (trans + s2 * z b) (rot2 + s3 * z c) q) _ _ _).
    intros j p. unfold sample_one, normal_from, walks. ra. cbn [v0 v1 v2].
    split; [reflexivity|]. split; [reflexivity|]. apply normalize_angle_spec.
Qed.
Print Assumptions C144_update.

(** Draws of an initialisation: each particle around the given pose, with the given
    deviations. *)
Theorem C144_init : forall n : nat, exists ds, own_draws n ds /\
  forall (z : nat -> R) (x y th sx sy sth : R) (f f' : pfilter R),
  length (pf_parts f) = n -> filter_init (normal_from z) x y th sx sy sth f = Ok f' ->
  length (pf_parts f') = n /\
  Forall2 (fun d q => let '(a, b, c) := d in v0 q = x + sx * z a /\ v1 q = y + sy * z b /\
      - PI < v2 q <= PI /\ same_heading (v2 q) (th + sth * z c)) ds (pf_parts f').
Proof.
  intro n. exists (triples n 0). split; [apply triples_own|]. intros z x y th sx sy sth f f' L H.
  unfold filter_init in H. apply update_stats_parts in H. destruct H as (-> & _). cbn [with_parts pf_parts].
  rewrite map_i_length. split; [exact L|]. subst n.
  match goal with |- context [map_i ?F 0 _] => set (F0 := F) end. generalize 0%nat. induction (pf_parts f) as [|p l IH]; intro i; [constructor|].
  unfold triples in *. cbn [length seq map map_i]. constructor; [|apply IH].
  unfold F0, normal_from. ra. cbn [v0 v1 v2]. split; [reflexivity|]. split; [reflexivity|]. apply normalize_angle_spec.
Qed.
Print Assumptions C144_init.

Example C144_nonvacuous : exists f f' f'' : pfilter R, length (pf_parts f) = 2%nat /\
  filter_init (normal_from INR) 0 0 0 1 1 0 f = Ok f' /\ map v0 (pf_parts f') = [0; 3] /\
  filter_update (normal_from INR) 1 0 0 f' = Ok f''.
Proof.
  exists (mkFilter 2 2 (mkMotion 1 1 1 1 1) [mkVec3 0 0 0; mkVec3 0 0 0] [1; 1] (mkVec3 0 0 0) mat3_zero).
  eexists. eexists. split; [reflexivity|]. split; [reflexivity|]. split; [|reflexivity].
  cbn [pf_parts with_parts map map_i v0]. unfold normal_from. ra. apply f_equal2; [cbn; ring|apply f_equal2; [cbn; ring|reflexivity]].
Qed.

(** C114: the headings. *)
Theorem C114_heading_exact_partial : forall (x y th sx sy sth : R) f f',
  filter_init draw_centre x y th sx sy sth f = Ok f' ->
  forall p, In p (pf_parts f') -> - PI < v2 p <= PI /\ same_heading (v2 p) th.
Proof.
  intros x y th sx sy sth f f' H. unfold filter_init in H. apply update_stats_parts in H. destruct H as (-> & _). cbn [with_parts pf_parts].
  intro p. match goal with |- context [map_i ?F 0 _] => set (F0 := F) end. generalize 0%nat. induction (pf_parts f) as [|q l IH]; intro i; [intros []|]. cbn [map_i]. intros [<-|I]; [|exact (IH _ I)].
  unfold F0, draw_centre. ra. cbn [v2]. apply normalize_angle_spec.
Qed.
Print Assumptions C114_heading_exact_partial.

Theorem C114_heading_partial : forall (lm : libm) (x y th sx sy sth : b64) f f',
  exact_fmod lm -> is_finite th = true -> Rabs (B2R th) <= bpow radix2 127 ->
  filter_init (A := BA lm) draw_centre x y th sx sy sth f = Ok f' ->
  forall p, In p (pf_parts f') ->
    Rabs (B2R (v2 p)) <= B2R b64_pi /\
    heading_within (bpow radix2 (-23) * Rabs (B2R th) + bpow radix2 (-47)) (v2 p) (B2R th).
Proof.
  intros lm x y th sx sy sth f f' Hm Ft Bt H. unfold filter_init in H. apply update_stats_parts in H. destruct H as (-> & _). cbn [with_parts pf_parts].
  intro p. match goal with |- context [map_i ?F 0 _] => set (F0 := F) end. generalize 0%nat. induction (pf_parts f) as [|q l IH]; intro i; [intros []|]. cbn [map_i]. intros [<-|I]; [|exact (IH _ I)].
  unfold F0, draw_centre. cbn [v2]. change (nsingle (Arith := BA lm) th) with (b64_single th).
  destruct (single_error th Ft Bt) as [Fs Es]. set (t := b64_single th) in *.
  pose proof (Rabs_triang_inv (B2R t) (B2R th)) as Ti.
  assert (P0 : 0 <= Rabs (B2R th)) by apply Rabs_pos.
  assert (Q1 : bpow radix2 (-24) <= / 2) by (apply (bpow_le radix2 (-24) (-1)); lia).
  assert (Q2 : bpow radix2 (-150) <= 1) by (apply (bpow_le radix2 (-150) 0); lia).
  assert (Bs : Rabs (B2R t) <= 2 * Rabs (B2R th) + 1) by nra.
  destruct (C125_normalize_angle lm t Hm Fs) as [[Fn [k Hk]] Bn].
  { eapply Rle_trans; [exact Bs|]. apply Rle_trans with (bpow radix2 129); [|apply bpow_le; lia].
    replace (bpow radix2 129) with (4 * bpow radix2 127) by (change 129%Z with (2 + 127)%Z; rewrite bpow_plus; reflexivity).
    assert (1 <= bpow radix2 127) by (apply (bpow_le radix2 0 127); lia). lra. }
  split; [exact Bn|]. split; [exact Fn|]. exists k. unfold angle_error in Hk.
  set (nv := normalize_angle (A := BA lm) t) in *.
  replace (B2R nv - (B2R th + 2 * PI * IZR k)) with ((B2R nv - (B2R t + 2 * PI * IZR k)) + (B2R t - B2R th)) by ring.
  eapply Rle_trans; [apply Rabs_triang|].
  assert (E1 : bpow radix2 (-24) + bpow radix2 (-51) * 2 <= bpow radix2 (-23)).
  { cbn. lra. }
  assert (E2 : bpow radix2 (-51) * 9 + bpow radix2 (-150) <= bpow radix2 (-47)).
  { replace (bpow radix2 (-47)) with (bpow radix2 (-51) * 16) by (cbn; lra).
    assert (bpow radix2 (-150) <= bpow radix2 (-51)) by (apply bpow_le; lia). pose proof (bpow_ge_0 radix2 (-51)). lra. }
  assert (G : 0 <= bpow radix2 (-51)) by apply bpow_ge_0. nra.
Qed.
Print Assumptions C114_heading_partial.

Example C114_heading_nonvacuous : forall (lm : libm) (y : b64), exact_fmod (with_fmod lm) /\ is_finite (b64_of 1 0) = true /\
  Rabs (B2R (b64_of 1 0)) <= bpow radix2 127 /\
  exists f f', pf_parts f <> [] /\ filter_init (A := BA (with_fmod lm)) draw_centre y y (b64_of 1 0) y y y f = Ok f'.
Proof.
  intros lm y. split; [apply C125_nonvacuous|]. split; [reflexivity|]. split.
  { rewrite (proj1 (b64_ofZ 1 ltac:(lia))), Rabs_pos_eq by lra. apply (bpow_le radix2 0 127). lia. }
  exists (mkFilter 1 1 (mkMotion y y y y y) [mkVec3 y y y] [y] (mkVec3 y y y) (mat3_zero (A := BA (with_fmod lm)))).
  eexists. split; [discriminate|]. reflexivity.
Qed.
