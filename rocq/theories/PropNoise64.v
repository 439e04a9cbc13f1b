(** Property C112 in doubles: more noise for larger parameters. *)

From Coq Require Import ZArith Reals List Bool Lia Lra Psatz.
From Flocq Require Import Core BinarySingleNaN.
From Verif Require Import Outcome Arith TypesModel MotionModel B64Lemmas MapperWitness2.
Local Open Scope R_scope.

(** [a] is not larger than [b], both finite, as magnitudes. *)
Definition within (a b : b64) : Prop := is_finite a = true /\ is_finite b = true /\ Rabs (B2R a) <= Rabs (B2R b).

Lemma rnd_abs (x : R) : Rabs (rnd x) = rnd (Rabs x).
Proof. symmetry. apply round_NE_abs. apply fexp64_valid. Qed.
Lemma rnd_abs_le (x y : R) : Rabs x <= Rabs y -> Rabs (rnd x) <= Rabs (rnd y).
Proof. intro H. rewrite !rnd_abs. apply rnd_le. exact H. Qed.
Lemma rnd_pos (x : R) : 0 <= x -> 0 <= rnd x.
Proof. intro H. apply rnd_lb; [apply generic_format_0|exact H]. Qed.
Lemma rnd_neg (x : R) : x <= 0 -> rnd x <= 0.
Proof. intro H. apply rnd_ub; [apply generic_format_0|exact H]. Qed.

Lemma mult_finite (x y : b64) : is_finite (Bmult mode_NE x y) = true ->
  is_finite x = true /\ is_finite y = true /\ B2R (Bmult mode_NE x y) = rnd (B2R x * B2R y) /\ Rabs (rnd (B2R x * B2R y)) < bpow radix2 1024.
Proof.
  intro F. assert (N : is_finite x = true /\ is_finite y = true) by (destruct x, y; cbn in F; try discriminate F; split; reflexivity).
  pose proof (Bmult_correct 53 1024 _ _ mode_NE x y) as H.
  change (round radix2 (SpecFloat.fexp 53 1024) (round_mode mode_NE) (B2R x * B2R y)) with (rnd (B2R x * B2R y)) in H.
  split; [apply N|]. split; [apply N|]. revert H. case Rlt_bool_spec; intros L H; [split; [apply H|exact L]|].
  exfalso. rewrite <- is_finite_SF_B2SF, H in F. discriminate F.
Qed.
Lemma plus_finite (x y : b64) : is_finite (Bplus mode_NE x y) = true ->
  is_finite x = true /\ is_finite y = true /\ B2R (Bplus mode_NE x y) = rnd (B2R x + B2R y) /\ Rabs (rnd (B2R x + B2R y)) < bpow radix2 1024.
Proof.
  intro F. assert (N : is_finite x = true /\ is_finite y = true).
  { destruct x as [|s| |], y as [|s'| |]; try (destruct s); try (destruct s'); cbn in F; try discriminate F; split; reflexivity. }
  destruct N as [Nx Ny]. pose proof (Bplus_correct 53 1024 _ _ mode_NE x y Nx Ny) as H.
  change (round radix2 (SpecFloat.fexp 53 1024) (round_mode mode_NE) (B2R x + B2R y)) with (rnd (B2R x + B2R y)) in H.
  split; [exact Nx|]. split; [exact Ny|]. revert H. case Rlt_bool_spec; intros L H; [split; [apply H|exact L]|].
  exfalso. destruct H as [H _]. rewrite <- is_finite_SF_B2SF, H in F. discriminate F.
Qed.

Lemma mult_within (a b x : b64) : is_finite a = true -> Rabs (B2R a) <= Rabs (B2R b) -> is_finite (Bmult mode_NE b x) = true ->
  within (Bmult mode_NE a x) (Bmult mode_NE b x) /\ B2R (Bmult mode_NE a x) = rnd (B2R a * B2R x).
Proof.
  intros Fa L F. destruct (mult_finite _ _ F) as (Fb & Fx & V & B).
  assert (Le : Rabs (rnd (B2R a * B2R x)) <= Rabs (rnd (B2R b * B2R x))).
  { apply rnd_abs_le. rewrite !Rabs_mult. apply Rmult_le_compat_r; [apply Rabs_pos|exact L]. }
  pose proof (Bmult_correct 53 1024 _ _ mode_NE a x) as H.
  change (round radix2 (SpecFloat.fexp 53 1024) (round_mode mode_NE) (B2R a * B2R x)) with (rnd (B2R a * B2R x)) in H.
  rewrite Rlt_bool_true in H by (eapply Rle_lt_trans; [exact Le|exact B]). destruct H as (H1 & H2 & _).
  split; [|exact H1]. split; [rewrite H2, Fa, Fx; reflexivity|]. split; [exact F|]. rewrite H1, V. exact Le.
Qed.

(** One term of the noise. *)
Lemma term_within (a b x : b64) : is_finite a = true -> 0 <= B2R a <= B2R b -> is_finite (Bmult mode_NE (Bmult mode_NE b x) x) = true ->
  within (Bmult mode_NE (Bmult mode_NE a x) x) (Bmult mode_NE (Bmult mode_NE b x) x) /\
  0 <= B2R (Bmult mode_NE (Bmult mode_NE a x) x) /\ 0 <= B2R (Bmult mode_NE (Bmult mode_NE b x) x).
Proof.
  intros Fa [P L] F. destruct (mult_finite _ _ F) as (F1 & Fx & V & _). destruct (mult_finite _ _ F1) as (Fb & _ & V1 & _).
  destruct (mult_within a b x Fa) as ((W1 & W2 & W3) & E1); [rewrite !Rabs_pos_eq by lra; exact L|exact F1|].
  destruct (mult_within (Bmult mode_NE a x) (Bmult mode_NE b x) x W1 W3 F) as (W & E). split; [exact W|].
  assert (Q : forall c, 0 <= c -> 0 <= rnd (rnd (c * B2R x) * B2R x)).
  { intros c C. apply rnd_pos. destruct (Rle_dec 0 (B2R x)) as [X|X].
    - apply Rmult_le_pos; [|exact X]. apply rnd_pos. apply Rmult_le_pos; assumption.
    - assert (rnd (c * B2R x) <= 0) by (apply rnd_neg; nra). nra. }
  rewrite E, E1, V, V1. split; apply Q; lra.
Qed.

Lemma plus_within (a b c d : b64) : within a b -> within c d -> 0 <= B2R a -> 0 <= B2R b -> 0 <= B2R c -> 0 <= B2R d -> is_finite (Bplus mode_NE b d) = true ->
  within (Bplus mode_NE a c) (Bplus mode_NE b d) /\ 0 <= B2R (Bplus mode_NE a c) /\ 0 <= B2R (Bplus mode_NE b d).
Proof.
  intros (Fa & Fb & L1) (Fc & Fd & L2) Pa Pb Pc Pd F. rewrite !Rabs_pos_eq in L1, L2 by assumption. destruct (plus_finite _ _ F) as (_ & _ & V & B).
  assert (Le : Rabs (rnd (B2R a + B2R c)) <= Rabs (rnd (B2R b + B2R d))) by (apply rnd_abs_le; rewrite !Rabs_pos_eq; lra).
  pose proof (Bplus_correct 53 1024 _ _ mode_NE a c Fa Fc) as H.
  change (round radix2 (SpecFloat.fexp 53 1024) (round_mode mode_NE) (B2R a + B2R c)) with (rnd (B2R a + B2R c)) in H.
  rewrite Rlt_bool_true in H by (eapply Rle_lt_trans; [exact Le|exact B]). destruct H as (H1 & H2 & _).
  split; [split; [exact H2|split; [exact F|rewrite H1, V; exact Le]]|]. rewrite H1, V. split; apply rnd_pos; lra.
Qed.

Lemma sqrt_finite (x : b64) : is_finite (Bsqrt mode_NE x) = true -> is_finite x = true.
Proof. destruct x as [|[]| |]; cbn; congruence. Qed.
Lemma sqrt_within (a b : b64) : within a b -> 0 <= B2R a -> 0 <= B2R b ->
  is_finite (Bsqrt mode_NE a) = true /\ is_finite (Bsqrt mode_NE b) = true /\ B2R (Bsqrt mode_NE a) <= B2R (Bsqrt mode_NE b).
Proof.
  intros (Fa & Fb & L) Pa Pb. rewrite !Rabs_pos_eq in L by assumption.
  assert (Q : forall x : b64, is_finite x = true -> 0 <= B2R x -> is_finite (Bsqrt mode_NE x) = true /\ B2R (Bsqrt mode_NE x) = rnd (sqrt (B2R x))).
  { intros x Fx P. destruct (Bsqrt_correct 53 1024 prec64_gt_0 prec64_lt_emax mode_NE x) as (V & FS & _). split; [|exact V].
    rewrite FS. destruct x as [s|s| |[] m e He]; try reflexivity; try discriminate Fx. exfalso. revert P.
    assert (B2R (B754_finite true m e He : b64) < 0); [|lra]. cbn. apply F2R_lt_0. cbn. lia. }
  destruct (Q a Fa Pa) as [Q1 Q2]. destruct (Q b Fb Pb) as [Q3 Q4]. split; [exact Q1|]. split; [exact Q3|]. rewrite Q2, Q4. apply rnd_le. apply sqrt_le_1_alt. exact L.
Qed.

(** C112 in doubles: raising noise parameters raises no standard deviation beyond
    the numbers, and lowers none. *)
Definition raised (a b : b64) : Prop := is_finite a = true /\ 0 <= B2R a <= B2R b.
Theorem C112_monotone_doubles_partial (lm : libm) (m m' : motion_params b64) (dx dy dth : b64) s1 s2 s3 s1' s2' s3' :
  raised (mo_a1 m) (mo_a1 m') -> raised (mo_a2 m) (mo_a2 m') -> raised (mo_a3 m) (mo_a3 m') -> raised (mo_a4 m) (mo_a4 m') ->
  motion_sigmas (A := BA lm) m dx dy dth = (s1, s2, s3) -> motion_sigmas (A := BA lm) m' dx dy dth = (s1', s2', s3') ->
  (is_finite s1' = true -> is_finite s1 = true /\ B2R s1 <= B2R s1') /\
  (is_finite s2' = true -> is_finite s2 = true /\ B2R s2 <= B2R s2') /\
  (is_finite s3' = true -> is_finite s3 = true /\ B2R s3 <= B2R s3').
Proof.
  intros R1 R2 R3 R4. unfold motion_sigmas. destruct (motion_mean (A := BA lm) dx dy dth) as ((t & r1) & r2).
  generalize (fold_turn (A := BA lm) r1) (fold_turn (A := BA lm) r2). intros u v. cbn [nadd nmul nsqrt BA].
  intros E E'. injection E as <- <- <-. injection E' as <- <- <-.
  assert (Two : forall a b c d x y, raised a b -> raised c d -> is_finite (Bplus mode_NE (Bmult mode_NE (Bmult mode_NE b x) x) (Bmult mode_NE (Bmult mode_NE d y) y)) = true ->
    within (Bplus mode_NE (Bmult mode_NE (Bmult mode_NE a x) x) (Bmult mode_NE (Bmult mode_NE c y) y)) (Bplus mode_NE (Bmult mode_NE (Bmult mode_NE b x) x) (Bmult mode_NE (Bmult mode_NE d y) y)) /\
    0 <= B2R (Bplus mode_NE (Bmult mode_NE (Bmult mode_NE a x) x) (Bmult mode_NE (Bmult mode_NE c y) y)) /\
    0 <= B2R (Bplus mode_NE (Bmult mode_NE (Bmult mode_NE b x) x) (Bmult mode_NE (Bmult mode_NE d y) y))).
  { intros a b c d x y [A1 A2] [C1 C2] F. destruct (plus_finite _ _ F) as (F1 & F2 & _).
    destruct (term_within a b x A1 A2 F1) as (T1 & T2 & T3). destruct (term_within c d y C1 C2 F2) as (T4 & T5 & T6). apply plus_within; assumption. }
  split; [|split]; intro F; pose proof (sqrt_finite _ F) as G.
  - destruct (Two _ _ _ _ _ _ R1 R2 G) as (W & P & P'). destruct (sqrt_within _ _ W P P') as (Q & _ & L). split; assumption.
  - destruct (plus_finite _ _ G) as (G1 & G2 & _). destruct (Two _ _ _ _ _ _ R3 R4 G1) as (W & P & P'). destruct R4 as [A1 A2].
    destruct (term_within _ _ v A1 A2 G2) as (T1 & T2 & T3). destruct (plus_within _ _ _ _ W T1 P P' T2 T3 G) as (W' & P1 & P1').
    destruct (sqrt_within _ _ W' P1 P1') as (Q & _ & L). split; assumption.
  - destruct (Two _ _ _ _ _ _ R1 R2 G) as (W & P & P'). destruct (sqrt_within _ _ W P P') as (Q & _ & L). split; assumption.
Qed.
Print Assumptions C112_monotone_doubles_partial.

(** A drive of one metre straight ahead: deviations 1 and 2.  The only remainder
    needed is that of a whole turn. *)
Definition turn_fmod (lm : libm) : libm := {|
  lm_cos := lm_cos lm; lm_sin := lm_sin lm; lm_exp := lm_exp lm; lm_atan2 := lm_atan2 lm; lm_hypot := lm_hypot lm; lm_fmod := fun _ _ => z64 0 |}.
Example C112_doubles_nonvacuous (lm : libm) : exists m m' : motion_params b64,
  raised (mo_a1 m) (mo_a1 m') /\ raised (mo_a2 m) (mo_a2 m') /\ raised (mo_a3 m) (mo_a3 m') /\ raised (mo_a4 m) (mo_a4 m') /\
  let s m := fst (fst (motion_sigmas (A := BA (easy (turn_fmod lm))) m (z64 1) (z64 0) (z64 0))) in
  is_finite (s m') = true /\ Beqb (s m) (z64 1) = true /\ Beqb (s m') (z64 2) = true.
Proof.
  exists (mkMotion (z64 0) (z64 1) (z64 0) (z64 0) (z64 0)), (mkMotion (z64 1) (z64 4) (z64 0) (z64 0) (z64 0)).
  assert (Q : forall a b, (0 <= a <= b)%Z -> (b <= 4)%Z -> raised (z64 a) (z64 b)).
  { intros a b H B. destruct (b64_ofZ a) as [V F]; [lia|]. destruct (b64_ofZ b) as [V' _]; [lia|]. split; [exact F|]. unfold z64. rewrite V, V'. split; apply IZR_le; lia. }
  split; [apply Q; lia|]. split; [apply Q; lia|]. split; [apply Q; lia|]. split; [apply Q; lia|]. vm_compute. repeat split.
Qed.
