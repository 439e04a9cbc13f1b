(** C137: the derivatives Ceres computes. *)

From Coq Require Import ZArith Reals List Bool Lia Lra.
From Flocq Require Import Core.
From Verif Require Import Outcome Arith TypesModel ScanModel ConstraintModel SpecPose JetModel SpecJet.
Local Open Scope R_scope.

(** [j] is value and derivative of [f] at zero. *)
Definition tracks (f : R -> R) (j : jet) : Prop := f 0 = fst j /\ derivable_pt_lim f 0 (snd j).

Lemma lim_ext (f g : R -> R) (d : R) : (forall h, f h = g h) -> derivable_pt_lim f 0 d -> derivable_pt_lim g 0 d.
Proof. intros E H eps He. destruct (H eps He) as [del D]. exists del. intros h Hn Hd. rewrite <- !E. apply D; assumption. Qed.

Lemma t_const (c : R) : tracks (fun _ => c) (jet_of c).
Proof. split; [reflexivity|]. apply derivable_pt_lim_const. Qed.
Lemma t_line (v d : R) : tracks (fun h => v + h * d) (v, d).
Proof.
  split; [cbn [fst]; ring|]. cbn [snd]. intros eps He. exists (mkposreal 1 Rlt_0_1). intros h Hn _.
  replace ((v + (0 + h) * d - (v + 0 * d)) / h - d) with 0 by (field; exact Hn). rewrite Rabs_R0. exact He.
Qed.
Lemma t_add (f g : R -> R) (x y : jet) : tracks f x -> tracks g y -> tracks (fun h => f h + g h) (nadd (Arith := JA) x y).
Proof. intros [Vx Dx] [Vy Dy]. split; [cbn; rewrite Vx, Vy; reflexivity|]. apply (derivable_pt_lim_plus f g); assumption. Qed.
Lemma t_sub (f g : R -> R) (x y : jet) : tracks f x -> tracks g y -> tracks (fun h => f h - g h) (nsub (Arith := JA) x y).
Proof. intros [Vx Dx] [Vy Dy]. split; [cbn; rewrite Vx, Vy; reflexivity|]. apply (derivable_pt_lim_minus f g); assumption. Qed.
Lemma t_opp (f : R -> R) (x : jet) : tracks f x -> tracks (fun h => - f h) (nopp (Arith := JA) x).
Proof. intros [Vx Dx]. split; [cbn; rewrite Vx; reflexivity|]. apply (derivable_pt_lim_opp f); assumption. Qed.
Lemma t_mul (f g : R -> R) (x y : jet) : tracks f x -> tracks g y -> tracks (fun h => f h * g h) (nmul (Arith := JA) x y).
Proof.
  intros [Vx Dx] [Vy Dy]. split; [cbn; rewrite Vx, Vy; reflexivity|]. cbn [snd nmul JA].
  pose proof (derivable_pt_lim_mult f g 0 _ _ Dx Dy) as D. rewrite Vx, Vy in D. rewrite Rplus_comm. exact D.
Qed.
Lemma t_cos (f : R -> R) (x : jet) : tracks f x -> tracks (fun h => cos (f h)) (ncos (Arith := JA) x).
Proof. intros [Vx Dx]. split; [cbn; rewrite Vx; reflexivity|]. cbn [snd ncos JA]. rewrite <- Vx. apply (derivable_pt_lim_comp f cos); [exact Dx|apply derivable_pt_lim_cos]. Qed.
Lemma t_sin (f : R -> R) (x : jet) : tracks f x -> tracks (fun h => sin (f h)) (nsin (Arith := JA) x).
Proof. intros [Vx Dx]. split; [cbn; rewrite Vx; reflexivity|]. cbn [snd nsin JA]. rewrite <- Vx. apply (derivable_pt_lim_comp f sin); [exact Dx|apply derivable_pt_lim_sin]. Qed.

(** Division by a constant. *)
Lemma t_div (f : R -> R) (x : jet) (c : R) : c <> 0 -> tracks f x -> tracks (fun h => f h / c) (ndiv (Arith := JA) x (jet_of c)).
Proof.
  intros C [Vx Dx]. split; [cbn; rewrite Vx; reflexivity|]. cbn [snd fst ndiv JA jet_of].
  replace ((snd x - fst x / c * 0) / c) with (/ c * snd x) by (field; exact C).
  apply (lim_ext (mult_real_fct (/ c) f)); [intros h; unfold mult_real_fct; field; exact C|]. apply derivable_pt_lim_scal. exact Dx.
Qed.

(** The floor is constant near a value that is no integer. *)
Lemma t_floor (f : R -> R) (x : jet) : (forall k : Z, fst x <> IZR k) -> tracks f x -> tracks (fun h => IZR (Zfloor (f h))) (nfloor (Arith := JA) x).
Proof.
  intros N [Vx Dx]. split; [cbn; rewrite Vx; reflexivity|]. cbn [snd nfloor JA jet_of].
  pose proof (derivable_continuous_pt f 0 (exist _ (snd x) Dx)) as C.
  pose proof (Zfloor_lb (f 0)) as F1. pose proof (Zfloor_ub (f 0)) as F2. set (k := Zfloor (f 0)) in *.
  assert (F1' : IZR k < f 0) by (specialize (N k); rewrite Vx in *; lra).
  set (e := Rmin (f 0 - IZR k) (IZR k + 1 - f 0)). assert (E : 0 < e) by (unfold e; apply Rmin_glb_lt; lra).
  destruct (C e E) as (a & A & H). intros eps He. exists (mkposreal a A). intros h Hn Hd. cbn [pos] in Hd.
  assert (K : Zfloor (f (0 + h)) = k).
  { apply Zfloor_imp. rewrite plus_IZR.
    assert (B : Rabs (f (0 + h) - f 0) < e).
    { apply (H (0 + h)). split; [split; [exact I|intro Q; apply Hn; lra]|]. unfold dist; cbn. unfold R_dist. replace (0 + h - 0) with h by ring. exact Hd. }
    apply Rabs_lt_inv in B. unfold e in B. pose proof (Rmin_l (f 0 - IZR k) (IZR k + 1 - f 0)). pose proof (Rmin_r (f 0 - IZR k) (IZR k + 1 - f 0)). lra. }
  rewrite K. fold k. replace ((IZR k - IZR k) / h - 0) with 0 by (field; exact Hn). rewrite Rabs_R0. exact He.
Qed.

Lemma t_normalize (f : R -> R) (x : jet) : no_half_turn (fst x) -> tracks f x -> tracks (fun h => ceres_normalize (f h)) (ceres_normalize (A := JA) x).
Proof.
  intros N T. pose proof PI_RGT_0 as P. unfold ceres_normalize.
  assert (T2 : tracks (fun _ => two_pi) (two_pi (A := JA))).
  { unfold two_pi. apply (t_mul (fun _ => IZR 2) (fun _ => PI)); apply t_const. }
  assert (E2 : two_pi (A := JA) = jet_of (2 * PI)) by (unfold two_pi, jet_of; cbn; f_equal; ring).
  apply (t_sub f); [exact T|]. apply (t_mul (fun _ => two_pi) (fun h => IZR (Zfloor ((f h + PI) / two_pi)))); [exact T2|].
  apply (t_floor (fun h => (f h + PI) / two_pi)).
  - intros k E. apply (N (k - 1)%Z). rewrite E2 in E. cbn [fst ndiv nadd JA npi jet_of] in E. rewrite minus_IZR.
    assert (Q : fst x + PI = IZR k * (2 * PI)) by (rewrite <- E; field; lra). lra.
  - rewrite E2. apply (t_div (fun h => f h + PI) _ (2 * PI)); [lra|]. apply (t_add f (fun _ => PI)); [exact T|apply t_const].
Qed.

Lemma t_raw (t a b da db : vec3 R) : no_half_turn (v2 b - v2 a - v2 t) ->
  let r := raw_residual (A := JA) (cast_vec t) (seeded a da) (seeded b db) in
  let f := fun h => raw_residual t (along a da h) (along b db h) in
  tracks (fun h => v0 (f h)) (v0 r) /\ tracks (fun h => v1 (f h)) (v1 r) /\ tracks (fun h => v2 (f h)) (v2 r).
Proof.
  intros N r f.
  pose proof (t_line (v0 a) (v0 da)) as A0. pose proof (t_line (v1 a) (v1 da)) as A1. pose proof (t_line (v2 a) (v2 da)) as A2.
  pose proof (t_line (v0 b) (v0 db)) as B0. pose proof (t_line (v1 b) (v1 db)) as B1. pose proof (t_line (v2 b) (v2 db)) as B2.
  pose proof (t_cos _ _ A2) as C. pose proof (t_sin _ _ A2) as S.
  pose proof (t_sub _ _ _ _ B0 A0) as DX. pose proof (t_sub _ _ _ _ B1 A1) as DY.
  pose proof (t_const (v0 t)) as T0. pose proof (t_const (v1 t)) as T1. pose proof (t_const (v2 t)) as T2.
  split; [|split].
  - exact (t_sub _ _ _ _ (t_add _ _ _ _ (t_mul _ _ _ _ C DX) (t_mul _ _ _ _ S DY)) T0).
  - exact (t_sub _ _ _ _ (t_add _ _ _ _ (t_mul _ _ _ _ (t_opp _ _ S) DX) (t_mul _ _ _ _ C DY)) T1).
  - refine (t_normalize _ _ _ (t_sub _ _ _ _ (t_sub _ _ _ _ B2 A2) T2)). exact N.
Qed.

Lemma t_row (x y z : R) (f g k : R -> R) (jx jy jz : jet) : tracks f jx -> tracks g jy -> tracks k jz ->
  tracks (fun h => x * f h + y * g h + z * k h)
    (nadd (Arith := JA) (nadd (Arith := JA) (nmul (Arith := JA) (jet_of x) jx) (nmul (Arith := JA) (jet_of y) jy)) (nmul (Arith := JA) (jet_of z) jz)).
Proof. intros F G K. exact (t_add _ _ _ _ (t_add _ _ _ _ (t_mul _ _ _ _ (t_const x) F) (t_mul _ _ _ _ (t_const y) G)) (t_mul _ _ _ _ (t_const z) K)). Qed.

(** * C137: away from heading errors of half a turn, the Jets of the error term
    carry its value and its derivative in every direction. *)
Theorem C137_jacobian (t : vec3 R) (L : mat3 R) (a b da db : vec3 R) : no_half_turn (v2 b - v2 a - v2 t) ->
  let r := residual (A := JA) (cast_vec t) (cast_mat L) (seeded a da) (seeded b db) in
  mkVec3 (fst (v0 r)) (fst (v1 r)) (fst (v2 r)) = residual t L a b /\
  speed (fun h => residual t L (along a da h) (along b db h)) (mkVec3 (snd (v0 r)) (snd (v1 r)) (snd (v2 r))).
Proof.
  intros N r. destruct (t_raw t a b da db N) as (T0 & T1 & T2).
  pose proof (t_row (a00 L) (a01 L) (a02 L) _ _ _ _ _ _ T0 T1 T2) as [V0 D0].
  pose proof (t_row (a10 L) (a11 L) (a12 L) _ _ _ _ _ _ T0 T1 T2) as [V1 D1].
  pose proof (t_row (a20 L) (a21 L) (a22 L) _ _ _ _ _ _ T0 T1 T2) as [V2 D2].
  split; [|split; [exact D0|split; [exact D1|exact D2]]].
  assert (E : forall v d, along v d 0 = v) by (intros [x y z] d; unfold along; cbn [TypesModel.v0 TypesModel.v1 TypesModel.v2]; f_equal; ring).
  rewrite !E in V0, V1, V2. unfold residual, mat3_vec. cbn [nadd nmul RA].
  etransitivity; [|symmetry; exact (f_equal3 mkVec3 V0 V1 V2)]. reflexivity.
Qed.
Print Assumptions C137_jacobian.

(** The slope of the cost of one constraint (half the squared residual) is the
    residual times the derivatives. *)
Theorem C137_gradient (t : vec3 R) (L : mat3 R) (a b da db : vec3 R) : no_half_turn (v2 b - v2 a - v2 t) ->
  let r := residual (A := JA) (cast_vec t) (cast_mat L) (seeded a da) (seeded b db) in
  derivable_pt_lim (fun h => / 2 * sqnorm3 (residual t L (along a da h) (along b db h))) 0
    (fst (v0 r) * snd (v0 r) + fst (v1 r) * snd (v1 r) + fst (v2 r) * snd (v2 r)).
Proof.
  intros N r. destruct (t_raw t a b da db N) as (T0 & T1 & T2).
  pose proof (t_row (a00 L) (a01 L) (a02 L) _ _ _ _ _ _ T0 T1 T2) as R0.
  pose proof (t_row (a10 L) (a11 L) (a12 L) _ _ _ _ _ _ T0 T1 T2) as R1.
  pose proof (t_row (a20 L) (a21 L) (a22 L) _ _ _ _ _ _ T0 T1 T2) as R2.
  pose proof (t_mul _ _ _ _ (t_const (/ 2)) (t_add _ _ _ _ (t_add _ _ _ _ (t_mul _ _ _ _ R0 R0) (t_mul _ _ _ _ R1 R1)) (t_mul _ _ _ _ R2 R2))) as [_ D].
  match type of D with derivable_pt_lim _ _ ?x => replace (fst (v0 r) * snd (v0 r) + fst (v1 r) * snd (v1 r) + fst (v2 r) * snd (v2 r)) with x end; [exact D|].
  unfold r, residual, mat3_vec. set (w := raw_residual (A := JA) _ _ _). clearbody w. cbn [TypesModel.v0 TypesModel.v1 TypesModel.v2 a00 a01 a02 a10 a11 a12 a20 a21 a22 cast_mat].
  cbn [nadd nmul JA fst snd jet_of]. field.
Qed.
Print Assumptions C137_gradient.

(** The restriction is needed: at half a turn the error jumps. *)
Theorem C137_half_turn : ~ exists d, derivable_pt_lim (fun h =>
  v2 (raw_residual (mkVec3 0 0 0) (along (mkVec3 0 0 0) (mkVec3 0 0 0) h) (along (mkVec3 0 0 PI) (mkVec3 0 0 1) h))) 0 d.
Proof.
  intros (d & D). pose proof PI_RGT_0 as P.
  assert (E : forall h, v2 (raw_residual (mkVec3 0 0 0) (along (mkVec3 0 0 0) (mkVec3 0 0 0) h) (along (mkVec3 0 0 PI) (mkVec3 0 0 1) h)) = ceres_normalize (PI + h)).
  { intros h. unfold raw_residual, along. cbn [TypesModel.v0 TypesModel.v1 TypesModel.v2 nsub RA]. f_equal. ring. }
  apply (lim_ext _ _ _ E) in D.
  assert (V0 : ceres_normalize (PI + 0) = - PI).
  { unfold ceres_normalize, two_pi. cbn [nadd nsub nmul ndiv nofZ npi nfloor RA]. replace ((PI + 0 + PI) / (2 * PI)) with 1 by (field; lra). rewrite (Zfloor_IZR 1). ring. }
  assert (VN : forall h, - PI < h < 0 -> ceres_normalize (PI + h) = PI + h).
  { intros h Hh. unfold ceres_normalize, two_pi. cbn [nadd nsub nmul ndiv nofZ npi nfloor RA].
    rewrite (Zfloor_imp 0); [ring|]. split.
    - apply Rmult_le_pos; [lra|left; apply Rinv_0_lt_compat; lra].
    - apply (Rmult_lt_reg_r (2 * PI)); [lra|]. unfold Rdiv. rewrite Rmult_assoc, Rinv_l, Rmult_1_r by lra. cbn. lra. }
  pose proof (derivable_continuous_pt _ 0 (exist _ d D)) as C. destruct (C PI P) as (al & A & H).
  set (h := - Rmin (al / 2) (PI / 2)).
  assert (M : 0 < Rmin (al / 2) (PI / 2)) by (apply Rmin_glb_lt; lra). pose proof (Rmin_l (al / 2) (PI / 2)). pose proof (Rmin_r (al / 2) (PI / 2)).
  assert (B : Rabs (ceres_normalize (PI + h) - ceres_normalize (PI + 0)) < PI).
  { apply (H h). split; [split; [exact I|unfold h; lra]|]. unfold dist; cbn. unfold R_dist. unfold h. rewrite Rminus_0_r, Rabs_Ropp, Rabs_pos_eq; lra. }
  rewrite V0, VN in B by (unfold h; lra). apply Rabs_lt_inv in B. unfold h in B. lra.
Qed.
Print Assumptions C137_half_turn.

(** Turning the first pose moves the second to its right. *)
Example C137_nonvacuous : let o := mkVec3 0 0 0 in let i := mkMat3 1 0 0 0 1 0 0 0 1 in
  no_half_turn (v2 (mkVec3 1 0 0) - v2 o - v2 o) /\
  snd (v1 (residual (A := JA) (cast_vec o) (cast_mat i) (seeded o (mkVec3 0 0 1)) (seeded (mkVec3 1 0 0) o))) = -1.
Proof.
  intros o i. split.
  - intros k E. cbn in E. pose proof PI_RGT_0 as P. assert (Q : 2 * IZR k + 1 = 0) by (apply (Rmult_eq_reg_r PI); lra).
    rewrite <- (mult_IZR 2), <- (plus_IZR _ 1) in Q. apply eq_IZR in Q. lia.
  - unfold residual, mat3_vec, raw_residual. cbn. rewrite cos_0, sin_0. ring.
Qed.
