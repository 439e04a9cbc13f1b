(** Sharper partial statements: bins of distant particles (C110), the tilt from
    which a laser counts as upside down (C83). *)

From Coq Require Import ZArith Reals List Bool Lra Lia String.
From Flocq Require Import Core BinarySingleNaN.
From Verif Require Import Outcome Arith TypesModel SpecPose SpecLaser SpecMapper SpecMapper2 SpecNode RTactics KdModel MotionModel FilterModel LaserModel MapperModel
  SpecFilter SpecKld FilterProofs FilterProofs2 KdProofs FilterWitness NodeProofs NodeProofs3 PropNoise PropNode.
Import ListNotations.
Local Open Scope R_scope.

(** ** C110: keys that differ by two bin sizes in some coordinate *)
Definition clearly_apart (size a b : vec3 R) : Prop := exists i, 0 < coord size i /\ 2 * coord size i <= Rabs (coord a i - coord b i).

Lemma Ztrunc_same (x y : R) : Ztrunc x = Ztrunc y -> Rabs (x - y) < 2.
Proof.
  intro E. destruct (Rle_lt_dec 0 x) as [X|X]; destruct (Rle_lt_dec 0 y) as [Y|Y].
  - assert (Rabs (x - y) < 1) by (apply Ztrunc_same_side; [left; split; assumption|exact E]). lra.
  - rewrite (Ztrunc_floor x X), (Ztrunc_ceil y) in E by lra. pose proof (Zfloor_ub x) as U. pose proof (Zfloor_lub 0 x X) as L.
    assert (C : (Zceil y <= 0)%Z) by (apply Zceil_glb; lra). assert (Z : Zfloor x = 0%Z) by lia. rewrite Z in *.
    pose proof (Zceil_ub y). assert (Q : IZR (Zceil y) - 1 < y). { unfold Zceil in *. rewrite opp_IZR in *. pose proof (Zfloor_ub (- y)). lra. }
    rewrite <- E in Q. apply Rabs_lt. lra.
  - rewrite (Ztrunc_floor y Y), (Ztrunc_ceil x) in E by lra. pose proof (Zfloor_ub y) as U. pose proof (Zfloor_lub 0 y Y) as L.
    assert (C : (Zceil x <= 0)%Z) by (apply Zceil_glb; lra). assert (Z : Zfloor y = 0%Z) by lia. rewrite Z in *.
    assert (Q : IZR (Zceil x) - 1 < x). { unfold Zceil in *. rewrite opp_IZR in *. pose proof (Zfloor_ub (- x)). lra. }
    rewrite E in Q. apply Rabs_lt. lra.
  - assert (Rabs (x - y) < 1) by (apply Ztrunc_same_side; [right; split; lra|exact E]). lra.
Qed.

Lemma apart_bins (size a b : vec3 R) : clearly_apart size a b -> bin_of size a <> bin_of size b.
Proof.
  intros (i & S & D) E. assert (G : forall s x y, 0 < s -> 2 * s <= Rabs (x - y) -> Ztrunc (x / s) <> Ztrunc (y / s)).
  { clear. intros s x y S D E. apply Ztrunc_same in E. replace (x / s - y / s) with ((x - y) / s) in E by (field; lra).
    unfold Rdiv in E. rewrite Rabs_mult, (Rabs_pos_eq (/ s)) in E by (left; apply Rinv_0_lt_compat; exact S).
    apply (Rmult_lt_compat_r s) in E; [|exact S]. rewrite Rmult_assoc, Rinv_l in E by lra. lra. }
  unfold bin_of in E. injection E as E0 E1 E2. destruct i as [|[|i]]; cbn [coord] in *; revert S D; [intros S D; exact (G _ _ _ S D E0)|intros S D; exact (G _ _ _ S D E1)|intros S D; exact (G _ _ _ S D E2)].
Qed.

(** Particles that are clearly apart from each other are all counted. *)
Theorem C110_clearly_apart_partial (size : vec3 R) (ps : list (vec3 R * R)) t :
  ForallOrdPairs (fun p q => clearly_apart size (fst p) (fst q)) ps ->
  kd_add_all size kd_empty ps = Ok t -> kd_leaf_count t = List.length ps.
Proof.
  intros F H. rewrite (kd_counts_bins_R _ _ _ H). unfold distinct. rewrite nodup_fixed_point; [rewrite !map_length; reflexivity|].
  clear H. induction F as [|p l Hp F IH]; cbn [map]; constructor; [|exact IH].
  intro I. apply in_map_iff in I. destruct I as (q & E & I). rewrite Forall_forall in Hp. specialize (Hp q I). apply apart_bins in Hp. congruence.
Qed.
Print Assumptions C110_clearly_apart_partial.

Example C110_clearly_apart_nonvacuous : let ps := [(mkVec3 (-1 / 2) 0 0, 1); (mkVec3 (1 / 2) 0 0, 1)] in
  ForallOrdPairs (fun p q : vec3 R * R => clearly_apart bin_size (fst p) (fst q)) ps /\ exists t, kd_add_all bin_size kd_empty ps = Ok t.
Proof.
  cbv zeta. split.
  - constructor; [|constructor; constructor]. constructor; [|constructor]. exists 0%nat. unfold bin_size, coord. ra. cbn [fst v0].
    rewrite Rabs_left by lra. lra.
  - pose proof PI_RGT_0. pose proof (IZR_le 4 (2 ^ 28) ltac:(lia)). apply kd_total.
    intros cv [<-|[<-|[]]]; cbn [fst]; apply particle_key; cbn [v0 v1 v2]; try (apply Rabs_le); lra.
Qed.

(** ** C83: the threshold *)
Theorem C83_threshold_partial (cf : config R) ls m e t :
  run cf ls = Ok m -> Forall named (received cf ls) -> first_mounted (received cf ls) = Some e -> le_laser e = Some t ->
  unit_quat t ->
  (sp_inverted (mp_spin m) = true <-> 2 / 100 < Rabs (ps_qx t) \/ 2 / 100 < Rabs (ps_qy t)) /\
  (z_up t < 9984 / 10000 -> sp_inverted (mp_spin m) = true) /\
  (sp_inverted (mp_spin m) = true -> z_up t < 9992 / 10000).
Proof.
  intros E F Fm L U. pose proof (mount_run cf ls m E F) as M. rewrite Fm in M. cbn [mount_after] in M. rewrite L in M.
  unfold mount in M. injection M as _ _ M. cbn [snd] in M. rewrite orb_false_r in M. rewrite M. rewrite tilted_spec.
  split; [reflexivity|]. unfold unit_quat, z_up in *.
  assert (Q : forall x, Rabs x * Rabs x = x * x) by (intro x; rewrite <- Rabs_mult; apply Rabs_pos_eq; nra).
  pose proof (Q (ps_qx t)) as Qx. pose proof (Q (ps_qy t)) as Qy. pose proof (Rabs_pos (ps_qx t)). pose proof (Rabs_pos (ps_qy t)). split.
  - intro Z. destruct (Rlt_le_dec (2 / 100) (Rabs (ps_qx t))) as [A|A]; [left; exact A|]. right. apply Rnot_le_lt. intro B.
    assert (Rabs (ps_qx t) * Rabs (ps_qx t) <= 4 / 10000) by nra. assert (Rabs (ps_qy t) * Rabs (ps_qy t) <= 4 / 10000) by nra. lra.
  - intros [A|A]; [assert (4 / 10000 < Rabs (ps_qx t) * Rabs (ps_qx t)) by nra|assert (4 / 10000 < Rabs (ps_qy t) * Rabs (ps_qy t)) by nra]; nra.
Qed.
Print Assumptions C83_threshold_partial.

Example C83_threshold_nonvacuous : exists m e t, run cfR [Deliver (EvLaser (mounted_ev "laser" t))] = Ok m /\
  Forall named (received cfR [Deliver (EvLaser (mounted_ev "laser" t))]) /\ first_mounted (received cfR [Deliver (EvLaser (mounted_ev "laser" t))]) = Some e /\
  le_laser e = Some t /\ unit_quat t /\ z_up t < 9984 / 10000.
Proof.
  set (t := mkPoseMsg 0%R 0%R 0%R 0%R (100 / 2501)%R 0%R (2499 / 2501)%R). destruct (C82_nonvacuous t) as (m & E & F & Fm).
  exists m, (mounted_ev "laser" t), t. repeat split; try assumption; unfold unit_quat, z_up; cbn [ps_qx ps_qy ps_qz ps_qw t]; lra.
Qed.
