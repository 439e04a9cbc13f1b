(** Property C149: readings below the smallest range of the sensor. *)

From Coq Require Import ZArith Reals List Bool Lia Lra.
From Flocq Require Import Core BinarySingleNaN.
From Verif Require Import Outcome Arith TypesModel LaserModel SpecPose SpecLaser RTactics B64Lemmas LaserProofs PropLaser.
Import ListNotations.
Local Open Scope R_scope.

(** C149 is false as stated: the callback does not look at range_min.  A reading of
    zero (how many drivers report a missing return) becomes a point, whatever the
    smallest range of the sensor is ... *)
Theorem C149_too_close_refuted : forall (lm : libm) (rm rmin : b64) laser o e amin ainc rmax,
  is_finite rm = true -> 0 <= B2R rm -> is_finite rmin = true -> 0 < B2R rmin ->
  exists r pts, Bltb r rmin = true /\ scan_points (A := BA lm) false rm laser o e (mkLaser amin ainc rmax [r]) = Ok pts /\ length pts = 1%nat.
Proof.
  intros lm rm rmin laser o e amin ainc rmax F P Fm Pm. exists (b64_of 0 0).
  destruct (b64_ofZ 0 ltac:(lia)) as [V0 F0].
  assert (N : is_nan rm = false) by (destruct rm; try reflexivity; discriminate F).
  destruct (C60_upright_filter_double lm rm laser o e amin ainc rmax 1 N) as (f & H). specialize (H [b64_of 0 0] eq_refl).
  assert (L : Bleb (b64_of 0 0) rm = true) by (rewrite Bleb_correct by assumption; apply Rle_bool_true; rewrite V0; exact P).
  cbn [indexed combine seq length filter fst snd] in H. rewrite L in H. cbn [map fst snd] in H.
  eexists. split; [rewrite Bltb_correct by assumption; apply Rlt_bool_true; rewrite V0; exact Pm|]. split; [exact H|reflexivity].
Qed.
Print Assumptions C149_too_close_refuted.

(** ... namely a point where the laser is. *)
Theorem C149_at_the_laser_refuted : forall rm rmin (laser o : pose R) amin ainc rmax, 0 <= rm -> 0 < rmin ->
  exists r, r < rmin /\ scan_points false rm laser o o (mkLaser amin ainc rmax [r]) = Ok [mkPoint (pox laser) (poy laser)].
Proof.
  intros rm rmin laser o amin ainc rmax P Pm. exists 0. split; [exact Pm|].
  rewrite C60_upright_points. cbn [lr_ranges lr_angle_min lr_angle_inc indexed combine seq length filter fst snd].
  rewrite Rle_bool_true by exact P. cbn [map fst snd INR]. unfold act, polar. cbn [pox poy poth px py].
  replace (0 * ((pox o - pox o) / 1)) with 0 by (unfold Rdiv; ring). replace (0 * ((poy o - poy o) / 1)) with 0 by (unfold Rdiv; ring).
  replace (0 * ((poth o - poth o) / 1)) with 0 by (unfold Rdiv; ring). rewrite cos_0, sin_0.
  do 2 f_equal. f_equal; ring.
Qed.
Print Assumptions C149_at_the_laser_refuted.

(** True if the driver reports readings below [rmin] as not a number. *)
Theorem C149_too_close_partial : forall (lm : libm) (rm rmin : b64) laser o e amin ainc rmax n, is_nan rm = false ->
  exists f : nat -> b64 -> point b64, forall ranges, length ranges = n ->
    (forall r, In r ranges -> is_nan r = true \/ Bleb rmin r = true) ->
    scan_points (A := BA lm) false rm laser o e (mkLaser amin ainc rmax ranges) =
    Ok (map (fun ir => f (fst ir) (snd ir)) (filter (fun ir => Bleb rmin (snd ir) && Bleb (snd ir) rm) (indexed ranges))).
Proof.
  intros lm rm rmin laser o e amin ainc rmax n N.
  destruct (C60_upright_filter_double lm rm laser o e amin ainc rmax n N) as (f & H). exists f. intros ranges L G. etransitivity; [exact (H ranges L)|]. do 2 f_equal.
  apply filter_ext_in. intros (i & r) Hi. cbn [snd]. unfold indexed in Hi. apply in_combine_r in Hi. destruct (G r Hi) as [K|K].
  - destruct r; try discriminate K. destruct rm, rmin; try discriminate N; reflexivity.
  - rewrite K. reflexivity.
Qed.
Print Assumptions C149_too_close_partial.

Example C149_nonvacuous : forall r, In r [b64_of 2 0; B754_nan] -> is_nan r = true \/ Bleb (b64_of 1 0) r = true.
Proof. intros r [<-|[<-|[]]]; [right; vm_compute; reflexivity|left; reflexivity]. Qed.
