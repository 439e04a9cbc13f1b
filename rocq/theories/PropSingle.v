(** Property C114: where the particles are put. *)

From Coq Require Import ZArith Reals List Bool Lra Lia.
From Flocq Require Import Core Relative BinarySingleNaN.
From Verif Require Import Outcome Arith TypesModel B64Lemmas RTactics MotionModel FilterModel SpecKld NdtProofs LaserB64.
Import ListNotations.
Local Open Scope R_scope.

(** Assignment to a C++ float rounds to 24 bits. *)
Lemma single_round : forall x : b64, is_finite x = true -> Rabs (B2R x) <= bpow radix2 127 ->
  is_finite (b64_single x) = true /\
  B2R (b64_single x) = round radix2 (FLT_exp (-149) 24) ZnearestE (B2R x).
Proof.
  intros x F B. destruct x as [s|s| |s m e W]; try discriminate F.
  - split; [reflexivity|]. cbn. rewrite round_0 by apply valid_rnd_N. reflexivity.
  - unfold b64_single.
    pose proof (binary_normalize_correct 24 128 prec32_gt_0 prec32_lt_emax mode_NE (SpecFloat.cond_Zopp s (Zpos m)) e s) as C.
    cbv zeta in C.
    change (SpecFloat.fexp 24 128) with (FLT_exp (-149) 24) in C.
    change (F2R (Float radix2 (SpecFloat.cond_Zopp s (Zpos m)) e)) with (B2R (B754_finite s m e W : b64)) in C.
    change (round_mode mode_NE) with ZnearestE in C.
    set (v := B2R (B754_finite s m e W)) in *.
    assert (V32 : Valid_exp (FLT_exp (-149) 24)) by (apply FLT_exp_valid; reflexivity).
    assert (G : generic_format radix2 (FLT_exp (-149) 24) (bpow radix2 127)).
    { apply generic_format_bpow'; [exact V32|]. unfold FLT_exp. lia. }
    assert (Br : Rabs (round radix2 (FLT_exp (-149) 24) ZnearestE v) <= bpow radix2 127).
    { apply Rabs_le. apply Rabs_le_inv in B. split.
      - apply round_ge_generic; [exact V32|apply valid_rnd_N|apply generic_format_opp; exact G|lra].
      - apply round_le_generic; [exact V32|apply valid_rnd_N|exact G|lra]. }
    rewrite Rlt_bool_true in C.
    2:{ eapply Rle_lt_trans; [exact Br|]. apply bpow_lt. lia. }
    destruct C as (V & Fb & _). rewrite <- V in Br. rewrite <- V. clear V.
    destruct (binary_normalize 24 128 prec32_gt_0 prec32_lt_emax mode_NE (SpecFloat.cond_Zopp s (Zpos m)) e s)
      as [s'|s'| |s' m' e' W'] eqn:N; try discriminate Fb.
    + split; reflexivity.
    + unfold b64_of.
      pose proof (binary_normalize_correct 53 1024 prec64_gt_0 prec64_lt_emax mode_NE (SpecFloat.cond_Zopp s' (Zpos m')) e' false) as C.
      cbv zeta in C.
      change (F2R (Float radix2 (SpecFloat.cond_Zopp s' (Zpos m')) e')) with (B2R (B754_finite s' m' e' W')) in C.
      set (w := B2R (B754_finite s' m' e' W')) in *.
      rewrite round_generic in C; [|apply valid_rnd_round_mode|].
      * rewrite Rlt_bool_true in C; [|eapply Rle_lt_trans; [exact Br|]; apply bpow_lt; lia].
        destruct C as (V & F' & _). split; assumption.
      * apply (generic_inclusion_mag radix2 (SpecFloat.fexp 24 128)).
        -- intros _. unfold SpecFloat.fexp, SpecFloat.emin. lia.
        -- apply generic_format_B2R.
Qed.

Lemma single_error : forall x : b64, is_finite x = true -> Rabs (B2R x) <= bpow radix2 127 ->
  is_finite (b64_single x) = true /\
  Rabs (B2R (b64_single x) - B2R x) <= bpow radix2 (-24) * Rabs (B2R x) + bpow radix2 (-150).
Proof.
  intros x F B. destruct (single_round x F B) as (F' & E). split; [exact F'|]. rewrite E.
  destruct (error_N_FLT radix2 (-149) 24 ltac:(lia) (fun z => negb (Z.even z)) (B2R x)) as (eps & eta & Be & Bt & _ & R0).
  assert (Be' : Rabs eps <= / 2 * bpow radix2 (-23)) by exact Be. clear Be. rename Be' into Be.
  assert (H1 : / 2 * bpow radix2 (-23) = bpow radix2 (-24)).
  { change (-24)%Z with (-1 + -23)%Z. rewrite bpow_plus. reflexivity. }
  assert (H2 : / 2 * bpow radix2 (-149) = bpow radix2 (-150)).
  { change (-150)%Z with (-1 + -149)%Z. rewrite bpow_plus. reflexivity. }
  rewrite H1 in Be. rewrite H2 in Bt.
  rewrite R0. replace (B2R x * (1 + eps) + eta - B2R x) with (eps * B2R x + eta) by ring.
  eapply Rle_trans; [apply Rabs_triang|]. rewrite Rabs_mult.
  apply Rplus_le_compat; [apply Rmult_le_compat_r; [apply Rabs_pos|exact Be]|exact Bt].
Qed.

(** Every draw returns the centre of its distribution. *)
Definition draw_centre {T} : normal_source T := fun _ m _ => m.

Lemma init_centre : forall {T} {A : Arith T} (x y th sx sy sth : T) (f f' : pfilter T),
  filter_init draw_centre x y th sx sy sth f = Ok f' ->
  length (pf_parts f') = length (pf_parts f) /\
  forall p, In p (pf_parts f') -> v0 p = nsingle x /\ v1 p = nsingle y.
Proof.
  intros T A x y th sx sy sth f f' H. unfold filter_init, update_stats in H. apply bind_ok in H.
  destruct H as (pw & _ & H). injection H as <-. cbn [pf_parts with_parts].
  match goal with |- length (map_i ?F _ _) = _ /\ _ => set (F0 := F) end.
  split.
  - generalize 0%nat. induction (pf_parts f) as [|q l IH]; intro i; [reflexivity|]. cbn [map_i length]. rewrite IH. reflexivity.
  - intro p. generalize 0%nat. induction (pf_parts f) as [|q l IH]; intro i; [intros []|]. cbn [map_i]. intros [<-|I]; [|exact (IH _ I)].
    unfold F0, draw_centre. cbn [v0 v1]. split; reflexivity.
Qed.

(** C114: false in double arithmetic.  The distributions are over floats: a
    position of 16777217 m is taken to be 16777216 m. *)
Theorem C114_centre_refuted : forall (lm : libm) (y th sx sy sth : b64) f f',
  filter_init (A := BA lm) draw_centre (b64_of 16777217 0) y th sx sy sth f = Ok f' ->
  forall p, In p (pf_parts f') -> B2R (v0 p) = 16777216 /\ B2R (b64_of 16777217 0) = 16777217.
Proof.
  intros lm y th sx sy sth f f' H p I. apply init_centre in H. destruct H as (_ & H). destruct (H p I) as (-> & _).
  split.
  - change (nsingle (b64_of 16777217 0)) with (b64_single (b64_of 16777217 0)).
    replace (b64_single (b64_of 16777217 0)) with (b64_of 16777216 0) by (apply B2SF_inj; vm_compute; reflexivity).
    apply b64_ofZ. lia.
  - apply b64_ofZ. lia.
Qed.
Print Assumptions C114_centre_refuted.

(** What holds: the offset is at most the 2^-24th part of the coordinate.  In
    exact arithmetic there is none. *)
Theorem C114_centre_partial : forall (lm : libm) (x y th sx sy sth : b64) f f',
  is_finite x = true -> is_finite y = true -> Rabs (B2R x) <= bpow radix2 127 -> Rabs (B2R y) <= bpow radix2 127 ->
  filter_init (A := BA lm) draw_centre x y th sx sy sth f = Ok f' ->
  length (pf_parts f') = length (pf_parts f) /\
  forall p, In p (pf_parts f') ->
    Rabs (B2R (v0 p) - B2R x) <= bpow radix2 (-24) * Rabs (B2R x) + bpow radix2 (-150) /\
    Rabs (B2R (v1 p) - B2R y) <= bpow radix2 (-24) * Rabs (B2R y) + bpow radix2 (-150).
Proof.
  intros lm x y th sx sy sth f f' Fx Fy Bx By H. apply init_centre in H. destruct H as (L & H). split; [exact L|].
  intros p I. destruct (H p I) as (-> & ->). split; apply single_error; assumption.
Qed.
Print Assumptions C114_centre_partial.

Theorem C114_centre_exact_partial : forall (x y th sx sy sth : R) f f',
  filter_init draw_centre x y th sx sy sth f = Ok f' ->
  length (pf_parts f') = length (pf_parts f) /\ forall p, In p (pf_parts f') -> v0 p = x /\ v1 p = y.
Proof. exact (fun x y th sx sy sth f f' H => init_centre x y th sx sy sth f f' H). Qed.
Print Assumptions C114_centre_exact_partial.

Example C114_nonvacuous : forall (lm : libm) (y th : b64), exists f f', pf_parts f <> [] /\
  filter_init (A := BA lm) draw_centre (b64_of 16777217 0) y th y y y f = Ok f'.
Proof.
  intros lm y th. exists (mkFilter 1 1 (mkMotion y y y y y) [mkVec3 y y y] [y] (mkVec3 y y y) (mat3_zero (A := BA lm))).
  eexists. split; [discriminate|]. reflexivity.
Qed.
