(** Property C171: further evidence points the right way. *)

From Coq Require Import ZArith Reals List Bool Lia Lra Psatz.
From Flocq Require Import Core.
From Verif Require Import Outcome Arith TypesModel ScanModel OccGridModel SpecOcc SpecCrossed SpecEvidence OccProofs OccProofs2 OccWitness PropCrossed.
Import ListNotations.
Local Open Scope R_scope.

Lemma no_frees (res : R) bs ms c : Forall2 (crossing res) bs ms -> (forall b, In b bs -> never_passes res c b) -> frees_at ms c = 0%nat.
Proof.
  intros F. induction F as [|b t bs ms C F IH]; intros H; [reflexivity|]. unfold frees_at in *. cbn [map concat]. rewrite filter_app, app_length, IH.
  - rewrite Nat.add_0_r. pose proof (H b (or_introl eq_refl) t C) as N. induction (fst t) as [|d l IHl]; [reflexivity|]. cbn [filter].
    destruct (same_square c d) eqn:E; [|apply IHl; intro Q; apply N; right; exact Q]. exfalso. apply N. left. unfold same_square in E.
    apply andb_prop in E. destruct E as [E1 E2]. apply Z.eqb_eq in E1, E2. destruct c, d. cbn in *. congruence.
  - intros b' Hb. apply H. right. exact Hb.
Qed.
Lemma no_hits (res : R) bs ms c : Forall2 (crossing res) bs ms -> (forall b, In b bs -> never_ends res c b) -> hits_at ms c = 0%nat.
Proof.
  intros F. induction F as [|b t bs ms C F IH]; intros H; [reflexivity|]. unfold hits_at in *. cbn [map filter].
  assert (IH' := IH (fun b' Hb => H b' (or_intror Hb))). pose proof (H b (or_introl eq_refl) t C) as N.
  destruct (same_square c (snd t)) eqn:E; [|exact IH']. exfalso. apply N. unfold same_square in E.
  apply andb_prop in E. destruct E as [E1 E2]. apply Z.eqb_eq in E1, E2. destruct c, (snd t). cbn in *. congruence.
Qed.

Section Drawn.
Context (res thresh : R) (Hr : 0 < res).

Lemma both_drawn scans added m m' : drawn res thresh scans m -> drawn res thresh (scans ++ added) m' ->
  exists ms more, Forall2 (crossing res) (beams added) more /\
    (forall c v, value_at res m c v -> verdict thresh (hits_at ms c) (hits_at ms c + frees_at ms c) v) /\
    (forall c v, value_at res m' c v -> verdict thresh (hits_at ms c + hits_at more c)
       (hits_at ms c + hits_at more c + (frees_at ms c + frees_at more c)) v).
Proof.
  intros D D'. destruct (C168_world_values res thresh Hr scans m D) as (ms & F & W). destruct (C168_world_values res thresh Hr _ m' D') as (ms' & F' & W').
  rewrite beams_app in F'. apply Forall2_app_inv_l in F'. destruct F' as (m1 & m2 & F1 & F2 & ->). rewrite <- (crossing_det _ _ _ _ F F1) in *.
  exists ms, m2. split; [exact F2|]. split; [exact W|]. intros c v V. specialize (W' c v V). rewrite hits_app, frees_app in W'. exact W'.
Qed.

(** C171: a square that is known stays known and stays in the published grid. *)
Theorem C171_known_stays_known : forall scans added m m' c v, drawn res thresh scans m -> drawn res thresh (scans ++ added) m' ->
  value_at res m c v -> v <> unknown -> exists v', value_at res m' c v' /\ v' <> unknown.
Proof.
  intros scans added m m' c v D D' V K. destruct (still_covered res thresh Hr scans added m m' c v D D' V) as (v' & V').
  destruct (both_drawn _ _ _ _ D D') as (ms & more & _ & W & W'). specialize (W c v V). specialize (W' c v' V').
  exists v'. split; [exact V'|]. intro Q. destruct W as (_ & W & _). destruct W' as (_ & W' & _). apply W' in Q. apply K. apply W. lia.
Qed.

(** Beams that end in a square, or have nothing to do with it, never turn it from
    occupied to free. *)
Theorem C171_hits_keep_occupied : forall scans added m m' c v', drawn res thresh scans m -> drawn res thresh (scans ++ added) m' ->
  (forall b, In b (beams added) -> never_passes res c b) ->
  value_at res m c occupied -> value_at res m' c v' -> v' = occupied.
Proof.
  intros scans added m m' c v' D D' H V V'. destruct (both_drawn _ _ _ _ D D') as (ms & more & F & W & W'). specialize (W c _ V). specialize (W' c v' V').
  rewrite (no_frees res _ _ c F H), Nat.add_0_r in W'. destruct W as (_ & _ & W). destruct W' as (_ & _ & W'). apply W'. apply proj1 in W. destruct (W eq_refl) as [N T].
  set (h := hits_at ms c) in *. set (f := frees_at ms c) in *. set (a := hits_at more c) in *. split; [lia|]. eapply Rlt_le_trans; [exact T|].
  rewrite !plus_INR. assert (P : 0 < INR h + INR f) by (rewrite <- plus_INR; apply lt_0_INR; exact N).
  pose proof (pos_INR h). pose proof (pos_INR f). pose proof (pos_INR a).
  apply (Rmult_le_reg_r (INR h + INR f)); [exact P|]. unfold Rdiv. rewrite Rmult_assoc, Rinv_l, Rmult_1_r by lra.
  apply (Rmult_le_reg_r (INR h + INR a + INR f)); [lra|]. replace ((INR h + INR a) * / (INR h + INR a + INR f) * (INR h + INR f) * (INR h + INR a + INR f))
    with ((INR h + INR a) * (INR h + INR f)) by (field; lra). nra.
Qed.

(** Beams that pass a square, or have nothing to do with it, never turn it from free
    to occupied. *)
Theorem C171_passing_keeps_free : forall scans added m m' c v', drawn res thresh scans m -> drawn res thresh (scans ++ added) m' ->
  (forall b, In b (beams added) -> never_ends res c b) ->
  value_at res m c free -> value_at res m' c v' -> v' = free.
Proof.
  intros scans added m m' c v' D D' H V V'. destruct (both_drawn _ _ _ _ D D') as (ms & more & F & W & W'). specialize (W c _ V). specialize (W' c v' V').
  rewrite (no_hits res _ _ c F H), Nat.add_0_r in W'. destruct W as (_ & W0 & W). destruct W' as (Wv & W0' & W').
  set (h := hits_at ms c) in *. set (f := frees_at ms c) in *. set (a := frees_at more c) in *.
  assert (N : (0 < h + f)%nat). { destruct (Nat.eq_dec (h + f) 0) as [Q|Q]; [|lia]. apply W0 in Q. discriminate Q. }
  destruct Wv as [->|[->| ->]]; [|reflexivity|].
  - exfalso. destruct W0' as [Q _]. specialize (Q eq_refl). lia.
  - exfalso. destruct W' as [Q _]. destruct (Q eq_refl) as [_ T]. apply proj2 in W. assert (E : free = 100%Z); [|discriminate E]. apply W. split; [exact N|].
    eapply Rlt_le_trans; [exact T|]. rewrite !plus_INR. assert (P : 0 < INR h + INR f) by (rewrite <- plus_INR; apply lt_0_INR; exact N).
    pose proof (pos_INR h). pose proof (pos_INR f). pose proof (pos_INR a).
    apply Rmult_le_compat_l; [assumption|]. apply Rinv_le_contravar; lra.
Qed.

(** A square nothing was known about is not occupied unless a beam ended in it, if the
    threshold is not negative. *)
Theorem C171_occupied_needs_a_hit : 0 <= thresh -> forall scans added m m' c, drawn res thresh scans m -> drawn res thresh (scans ++ added) m' ->
  (forall b, In b (beams added) -> never_ends res c b) ->
  value_at res m' c occupied -> value_at res m c unknown -> False.
Proof.
  intros Ht scans added m m' c D D' H V' V. destruct (both_drawn _ _ _ _ D D') as (ms & more & F & W & W'). specialize (W c _ V). specialize (W' c _ V').
  rewrite (no_hits res _ _ c F H) in W'. destruct W as (_ & W & _). destruct W' as (_ & _ & W'). apply proj1 in W. specialize (W eq_refl).
  apply proj1 in W'. destruct (W' eq_refl) as [_ T]. replace (hits_at ms c) with 0%nat in T by lia. cbn [Nat.add INR] in T. unfold Rdiv in T. rewrite Rmult_0_l in T. lra.
Qed.
End Drawn.

(** A beam of length 3, seen twice: the square it ends in is occupied, one it passes
    is free, one behind it is unknown. *)
Lemma ray_marks t : crossing 1 (mkPoint 0 0, mkPoint 3 0) t -> t = ([(0, 0); (1, 0); (2, 0)]%Z, (3, 0)%Z).
Proof.
  intro C. unfold crossing, square_of in C. cbn [fst snd px py] in C. rewrite (proj1 (over_1 0)), (proj1 (over_1 3)) in C. vm_compute in C. injection C as <-. reflexivity.
Qed.
Lemma ray_beams : beams [ray_scan 0 3] = [(mkPoint 0 0, mkPoint 3 0)].
Proof. unfold beams. cbn [flat_map]. rewrite ray_scan_world. cbn [map app]. rewrite Rplus_0_r. reflexivity. Qed.

Example C171_nonvacuous : exists m m', drawn 1 (1 / 2) [ray_scan 0 3] m /\ drawn 1 (1 / 2) ([ray_scan 0 3] ++ [ray_scan 0 3]) m' /\
  (forall b, In b (beams [ray_scan 0 3]) -> never_passes 1 (3, 0)%Z b /\ never_ends 1 (1, 0)%Z b /\ never_ends 1 (4, 0)%Z b) /\
  value_at 1 m (3, 0)%Z occupied /\ value_at 1 m (1, 0)%Z free /\ value_at 1 m (4, 0)%Z unknown.
Proof.
  destruct (low_high_1 3 ltac:(lra)) as [L1 H1]. destruct (low_high_1 0 ltac:(lra)) as [L00 H00].
  assert (LL : lowest [3; 3] = 0 /\ highest [3; 3] = 3). { unfold lowest, highest. cbn [fold_left]. rewrite !Rmin_left, (Rmax_right 0 3), Rmax_right by (rewrite ?Rmin_left; lra). split; reflexivity. }
  assert (L0 : lowest [0; 0] = 0 /\ highest [0; 0] = 0). { apply low_high; lra. }
  destruct LL as [L2 H2]. destruct L0 as [L0 H0].
  destruct (drawn_fresh [ray_scan 0 3]) as (m & D).
  { apply batch_fits; [lra|]. rewrite one_world. cbn [map px py]. rewrite L1, H1, L00, H00. rewrite (proj1 (over_1 0)), (proj2 (over_1 0)), (proj2 (over_1 3)). reflexivity. }
  { intros s [<-|[]]. reflexivity. }
  destruct (drawn_fresh ([ray_scan 0 3] ++ [ray_scan 0 3])) as (m' & D').
  { apply batch_fits; [lra|]. cbn [app]. rewrite two_worlds. cbn [map px py]. rewrite L2, H2, L0, H0. rewrite (proj1 (over_1 0)), (proj2 (over_1 0)), (proj2 (over_1 3)). reflexivity. }
  { intros s [<-|[<-|[]]]; reflexivity. }
  exists m, m'. split; [exact D|]. split; [exact D'|]. split.
  { intros b Ib. rewrite ray_beams in Ib. destruct Ib as [<-|[]]. split; [|split]; intros t C; apply ray_marks in C; subst t; cbn [fst snd In].
    - intros [Q|[Q|[Q|[]]]]; discriminate Q.
    - discriminate.
    - discriminate. }
  destruct (C168_world_values 1 (1 / 2) Rlt_0_1 _ m D) as (ms & F & W). rewrite ray_beams in F. inversion F as [|b t bs l C F' E1 E2]; subst. inversion F'; subst.
  apply ray_marks in C. subst t.
  assert (V : forall x, (x = 1 \/ x = 3 \/ x = 4)%Z -> exists v, value_at 1 m (x, 0)%Z v).
  { intros x Hx. apply (covered_squares 1 (1 / 2) Rlt_0_1 _ m _ D). unfold boxed. rewrite one_world. cbn [map px py fst snd]. rewrite L1, H1, L00, H00.
    rewrite (proj1 (over_1 0)), (proj2 (over_1 0)), (proj2 (over_1 3)). lia. }
  split; [|split].
  - destruct (V 3%Z) as (v & Hv); [lia|]. destruct (W _ _ Hv) as (_ & _ & Q). replace occupied with v; [exact Hv|]. apply Q. split; [vm_compute; lia|]. vm_compute hits_at. vm_compute frees_at. cbn [Nat.add INR]. lra.
  - destruct (V 1%Z) as (v & Hv); [lia|]. destruct (W _ _ Hv) as (Q0 & Q1 & Q). replace free with v; [exact Hv|]. destruct Q0 as [->|[->| ->]]; [|reflexivity|].
    + exfalso. apply proj1 in Q1. specialize (Q1 eq_refl). vm_compute in Q1. discriminate Q1.
    + exfalso. apply proj1 in Q. destruct (Q eq_refl) as [_ T]. revert T. vm_compute hits_at. vm_compute frees_at. cbn [Nat.add INR]. lra.
  - destruct (V 4%Z) as (v & Hv); [lia|]. destruct (W _ _ Hv) as (_ & Q & _). replace unknown with v; [exact Hv|]. apply Q. reflexivity.
Qed.

Print Assumptions C171_known_stays_known.
Print Assumptions C171_hits_keep_occupied.
Print Assumptions C171_passing_keeps_free.
Print Assumptions C171_occupied_needs_a_hit.
Print Assumptions C171_nonvacuous.
