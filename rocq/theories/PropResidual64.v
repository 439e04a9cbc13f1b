(** C127: a new constraint asks for nothing, in double arithmetic too. *)

From Coq Require Import ZArith Reals List Bool Lia Lra.
From Flocq Require Import Core BinarySingleNaN.
From Verif Require Import Outcome Arith TypesModel ScanModel ConstraintModel
  B64Tactics B64Lemmas LaserB64 CellB64 PropGrid64 MapperWitness2.
Import ListNotations.
Local Open Scope R_scope.

(** The coordinates of a pose are finite and not astronomical. *)
Definition usual_pose (p : pose b64) : Prop := bnd (pox p) 400 /\ bnd (poy p) 400 /\ bnd (poth p) 400.

(** Every entry of a matrix is a finite double. *)
Definition finite3 (m : mat3 b64) : Prop :=
  (is_finite (a00 m) = true /\ is_finite (a01 m) = true /\ is_finite (a02 m) = true) /\
  (is_finite (a10 m) = true /\ is_finite (a11 m) = true /\ is_finite (a12 m) = true) /\
  (is_finite (a20 m) = true /\ is_finite (a21 m) = true /\ is_finite (a22 m) = true).

(** Zero, of either sign. *)
Definition is_zero (x : b64) : Prop := is_finite x = true /\ B2R x = 0.

Lemma zero_form (x : b64) : is_zero x -> exists s, x = B754_zero s.
Proof.
  intros [F V]. destruct x as [s|s| |s m e B]; try discriminate; [exists s; reflexivity|].
  exfalso. cbn [B2R] in V. apply eq_0_F2R in V. destruct s; discriminate.
Qed.
Lemma form_zero (s : bool) : is_zero (B754_zero s).
Proof. split; reflexivity. Qed.

Lemma self_zero (x : b64) : is_finite x = true -> is_zero (Bminus mode_NE x x).
Proof.
  intros F. destruct (b64_sub_ok x x F F) as [V G].
  - rewrite Rminus_diag_eq by reflexivity. rewrite Rabs_R0. apply bpow_ge_0.
  - split; [exact G|]. rewrite V, Rminus_diag_eq by reflexivity. unfold rnd. apply round_0. typeclasses eauto.
Qed.
Lemma mul_zero (x y : b64) : is_finite x = true -> is_zero y -> is_zero (Bmult mode_NE x y).
Proof.
  intros F [Fy Vy]. destruct (b64_mul_ok x y F Fy) as [V G].
  - rewrite Vy, Rmult_0_r, Rabs_R0. apply bpow_ge_0.
  - split; [exact G|]. rewrite V, Vy, Rmult_0_r. unfold rnd. apply round_0. typeclasses eauto.
Qed.
Lemma add_zero (x y : b64) : is_zero x -> is_zero y -> is_zero (Bplus mode_NE x y).
Proof.
  intros [Fx Vx] [Fy Vy]. destruct (b64_add_ok x y Fx Fy) as [V G].
  - rewrite Vx, Vy, Rplus_0_r, Rabs_R0. apply bpow_ge_0.
  - split; [exact G|]. rewrite V, Vx, Vy, Rplus_0_r. unfold rnd. apply round_0. typeclasses eauto.
Qed.

Definition zero_bit (x : b64) : bool := match x with B754_zero _ => true | _ => false end.
Lemma zero_bit_ok (x : b64) : zero_bit x = true -> is_zero x.
Proof. destruct x; try discriminate. intros _. apply form_zero. Qed.

Lemma normalize_zero_bit (lm : libm) (s : bool) : zero_bit (ceres_normalize (A := BA lm) (B754_zero s)) = true.
Proof. destruct s; vm_compute; reflexivity. Qed.

Lemma normalize_zero (lm : libm) (x : b64) : is_zero x -> is_zero (ceres_normalize (A := BA lm) x).
Proof. intros H. destruct (zero_form x H) as [s ->]. apply zero_bit_ok. apply normalize_zero_bit. Qed.

Lemma raw_fresh (lm : libm) (from to : scan b64) (cov : mat3 b64) : trig_ok lm -> usual_pose (s_pose from) -> usual_pose (s_pose to) ->
  let r := raw_residual (A := BA lm) (c_transform (make_constraint (A := BA lm) from to cov)) (pose_vec (s_pose from)) (pose_vec (s_pose to)) in
  is_zero (v0 r) /\ is_zero (v1 r) /\ is_zero (v2 r).
Proof.
  intros T (X1 & Y1 & H1) (X2 & Y2 & H2) r.
  pose proof (bnd_sub _ _ _ X2 X1 ltac:(lia)) as DX. pose proof (bnd_sub _ _ _ Y2 Y1 ltac:(lia)) as DY.
  pose proof (bnd_sub _ _ _ H2 H1 ltac:(lia)) as DH.
  destruct (T (poth (s_pose from)) (proj1 H1)) as [C S].
  pose proof (bnd_mul _ _ _ _ C DX ltac:(lia)) as CX. pose proof (bnd_mul _ _ _ _ S DY ltac:(lia)) as SY.
  pose proof (bnd_mul _ _ _ _ (bnd_opp _ _ S) DX ltac:(lia)) as SX. pose proof (bnd_mul _ _ _ _ C DY ltac:(lia)) as CY.
  pose proof (bnd_add _ _ _ CX SY ltac:(lia)) as E0. pose proof (bnd_add _ _ _ SX CY ltac:(lia)) as E1.
  split; [exact (self_zero _ (proj1 E0))|]. split; [exact (self_zero _ (proj1 E1))|].
  apply normalize_zero. exact (self_zero _ (proj1 DH)).
Qed.

Theorem C127_fresh_constraint_zero_residual (lm : libm) (from to : scan b64) (cov : mat3 b64) :
  trig_ok lm -> usual_pose (s_pose from) -> usual_pose (s_pose to) ->
  let c := make_constraint (A := BA lm) from to cov in
  finite3 (llt_L (A := BA lm) (c_information c)) ->
  let r := constraint_residual (A := BA lm) c (s_pose from) (s_pose to) in
  is_zero (v0 r) /\ is_zero (v1 r) /\ is_zero (v2 r).
Proof.
  intros T Pf Pt c (F0 & F1 & F2) r.
  destruct (raw_fresh lm from to cov T Pf Pt) as (Z0 & Z1 & Z2).
  split; [|split].
  - apply add_zero; [apply add_zero|]; apply mul_zero; try apply F0; assumption.
  - apply add_zero; [apply add_zero|]; apply mul_zero; try apply F1; assumption.
  - apply add_zero; [apply add_zero|]; apply mul_zero; try apply F2; assumption.
Qed.
Print Assumptions C127_fresh_constraint_zero_residual.

(** Non-vacuity: two poses that differ in every coordinate, with the identity
    as covariance, and a library whose functions are bounded. *)
Definition with_trig (lm : libm) : libm := {|
  lm_cos := fun _ => z64 1; lm_sin := fun _ => half64; lm_exp := lm_exp lm; lm_atan2 := lm_atan2 lm; lm_hypot := lm_hypot lm; lm_fmod := lm_fmod lm |}.
Definition scan_a : scan b64 := mkScan 0 true (mkPose (z64 1) (z64 (-2)) half64) (mkPose (z64 0) (z64 0) (z64 0)) [].
Definition scan_b : scan b64 := mkScan 1 true (mkPose (z64 4) (z64 7) (z64 2)) (mkPose (z64 0) (z64 0) (z64 0)) [].
Definition cov_id : mat3 b64 := mkMat3 (z64 1) (z64 0) (z64 0) (z64 0) (z64 1) (z64 0) (z64 0) (z64 0) (z64 1).

Lemma z64_usual (z : Z) : (Z.abs z <= 2 ^ 53)%Z -> bnd (z64 z) 400.
Proof. intros H. apply (bnd_weaken _ 53); [apply bnd_ofZ; exact H|lia]. Qed.
Lemma half_bnd : bnd half64 0.
Proof. unfold half64. apply b64_of_bnd; [cbn; rewrite Rabs_pos_eq; lra|lia]. Qed.

Definition finite3b (m : mat3 b64) : bool :=
  forallb is_finite [a00 m; a01 m; a02 m; a10 m; a11 m; a12 m; a20 m; a21 m; a22 m].
Lemma finite3b_ok (m : mat3 b64) : finite3b m = true -> finite3 m.
Proof. unfold finite3b, finite3. cbn [forallb]. rewrite !andb_true_iff. tauto. Qed.
Lemma id_llt (lm : libm) : finite3b (llt_L (A := BA lm) (mat3_inverse (A := BA lm) cov_id)) = true.
Proof. vm_compute. reflexivity. Qed.

Lemma C127_nonvacuous (lm : libm) : trig_ok (with_trig lm) /\ usual_pose (s_pose scan_a) /\ usual_pose (s_pose scan_b) /\
  finite3 (llt_L (A := BA (with_trig lm)) (c_information (make_constraint (A := BA (with_trig lm)) scan_a scan_b cov_id))) /\
  pox (s_pose scan_a) <> pox (s_pose scan_b) /\ poth (s_pose scan_a) <> poth (s_pose scan_b).
Proof.
  split; [|split; [|split; [|split; [|split]]]].
  - intros x _. split; [|exact half_bnd]. unfold with_trig. cbn [lm_cos]. unfold z64. apply b64_of_bnd; [cbn; rewrite Rabs_pos_eq; lra|lia].
  - split; [|split]; try (apply z64_usual; cbn; lia). apply (bnd_weaken _ 0); [exact half_bnd|lia].
  - split; [|split]; apply z64_usual; cbn; lia.
  - apply finite3b_ok. exact (id_llt (with_trig lm)).
  - intro E. assert (H : Beqb (pox (s_pose scan_a)) (pox (s_pose scan_b)) = false) by (vm_compute; reflexivity). rewrite E in H. vm_compute in H. discriminate.
  - intro E. assert (H : Beqb (poth (s_pose scan_a)) (poth (s_pose scan_b)) = false) by (vm_compute; reflexivity). rewrite E in H. vm_compute in H. discriminate.
Qed.
