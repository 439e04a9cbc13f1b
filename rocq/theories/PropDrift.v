(** C180: how far a map built without loop closures drifts from odometry. *)

From Coq Require Import Reals Psatz ZArith List Bool String Lia.
From Flocq Require Import Core BinarySingleNaN.
From Verif Require Import Outcome Arith RTactics SpecOrigin TypesModel ScanModel MatcherModel GraphModel LaserModel MapperModel SpecPose SpecLaser
  DefaultsModel SpecMapper SpecMapper2 SpecNode SpecWindow SpecDrift NdtProofs ConstraintProofs AngleProofs LaserProofs MapperInv3 MapperInv5 PropWindow DriftProofs DriftWitness.
Import ListNotations.
Local Open Scope R_scope.

Lemma abs_sin (x : R) : Rabs (sin x) <= Rabs x.
Proof.
  assert (P : forall y, 0 <= y -> Rabs (sin y) <= y).
  { intros y Hy. destruct (Rle_lt_dec y 1) as [H|H].
    - pose proof PI2_1. destruct Hy as [Hy|<-]; [|rewrite sin_0, Rabs_R0; lra].
      rewrite Rabs_pos_eq; [left; apply sin_lt_x; exact Hy|]. apply sin_ge_0; lra.
    - apply Rle_trans with 1; [|lra]. apply Rabs_le. apply SIN_bound. }
  destruct (Rle_lt_dec 0 x) as [H|H]; [rewrite (Rabs_pos_eq x H); apply P; exact H|].
  rewrite (Rabs_left x H). rewrite <- Rabs_Ropp, <- sin_neg. apply P. lra.
Qed.
Lemma cos_low (e : R) : 2 - 2 * cos e <= e * e.
Proof.
  replace e with (2 * (e / 2)) at 1 by lra. rewrite cos_2a_sin. pose proof (abs_sin (e / 2)) as H.
  assert (Q : sin (e / 2) * sin (e / 2) <= e / 2 * (e / 2)).
  { change (Rsqr (sin (e / 2)) <= Rsqr (e / 2)). apply Rsqr_le_abs_1. exact H. }
  lra.
Qed.

(** Turning a vector by [e] moves its end by at most [e] times its length. *)
Lemma rot_small (f e x y : R) :
  dist_euc (cos (f + e) * x - sin (f + e) * y) (sin (f + e) * x + cos (f + e) * y) (cos f * x - sin f * y) (sin f * x + cos f * y)
    <= Rabs e * dist_euc 0 0 x y.
Proof.
  unfold dist_euc.
  replace (Rsqr (cos (f + e) * x - sin (f + e) * y - (cos f * x - sin f * y)) + Rsqr (sin (f + e) * x + cos (f + e) * y - (sin f * x + cos f * y)))
    with ((2 - 2 * cos e) * (Rsqr (0 - x) + Rsqr (0 - y))).
  - rewrite <- sqrt_Rsqr_abs, <- sqrt_mult_alt by apply Rle_0_sqr. apply sqrt_le_1_alt. apply Rmult_le_compat_r; [|exact (cos_low e)].
    apply Rplus_le_le_0_compat; apply Rle_0_sqr.
  - pose proof (sin2_cos2 f) as S1. pose proof (sin2_cos2 (f + e)) as S2.
    assert (C : cos e = cos (f + e) * cos f + sin (f + e) * sin f) by (rewrite <- cos_minus; f_equal; ring).
    rewrite C. unfold Rsqr in *. set (c := cos f) in *. set (s := sin f) in *. set (c' := cos (f + e)) in *. set (s' := sin (f + e)) in *.
    replace ((c' * x - s' * y - (c * x - s * y)) * (c' * x - s' * y - (c * x - s * y)) + (s' * x + c' * y - (s * x + c * y)) * (s' * x + c' * y - (s * x + c * y)))
      with (((s' * s' + c' * c') + (s * s + c * c) - 2 * (c' * c + s' * s)) * (x * x + y * y)) by ring.
    rewrite S1, S2. ring.
Qed.

Lemma dist_shift (x y dx dy : R) : dist_euc (x + dx) (y + dy) x y = dist_euc 0 0 dx dy.
Proof. unfold dist_euc. f_equal. unfold Rsqr. ring. Qed.
Lemma dist_both (x y x' y' dx dy : R) : dist_euc (x + dx) (y + dy) (x' + dx) (y' + dy) = dist_euc x y x' y'.
Proof. unfold dist_euc. f_equal. unfold Rsqr. ring. Qed.
Lemma dist_box (l x y : R) : 0 <= l -> Rabs x <= l -> Rabs y <= l -> dist_euc 0 0 x y <= sqrt 2 * l.
Proof.
  intros Hl Hx Hy. unfold dist_euc. rewrite <- (sqrt_square l) at 1 by exact Hl. rewrite <- sqrt_mult_alt by lra. apply sqrt_le_1_alt.
  assert (Q : forall z, Rabs z <= l -> Rsqr (0 - z) <= l * l).
  { intros z Hz. replace (Rsqr (0 - z)) with (Rsqr z) by (unfold Rsqr; ring). change (l * l) with (Rsqr l). apply Rsqr_le_abs_1.
    rewrite (Rabs_pos_eq l Hl). exact Hz. }
  pose proof (Q x Hx). pose proof (Q y Hy). lra.
Qed.
Lemma dist_pos (a b c d : R) : 0 <= dist_euc a b c d. Proof. apply sqrt_pos. Qed.

(** One message: the heading error grows by the correction, the position error by
    the correction and by what the heading error does to the way driven. *)
Lemma one_message (r0 o0 r o o' c : pose R) (e l : R) : 0 <= l -> Rabs (pox c) <= l -> Rabs (poy c) <= l ->
  same_heading (poth r) (poth (dead_reckoned r0 o0 o) + e) ->
  let r' := add_correction (odom_guess r o o') c in
  same_heading (poth r') (poth (dead_reckoned r0 o0 o') + (e + poth c)) /\
  dist_euc (pox r') (poy r') (pox (dead_reckoned r0 o0 o')) (poy (dead_reckoned r0 o0 o')) <=
    dist_euc (pox r) (poy r) (pox (dead_reckoned r0 o0 o)) (poy (dead_reckoned r0 o0 o)) + sqrt 2 * l +
    Rabs e * dist_euc (pox o) (poy o) (pox o') (poy o').
Proof.
  intros Hl Cx Cy [n Hn] r'. cbn [dead_reckoned poth] in Hn.
  set (h := poth r0 - poth o0) in *.
  set (dx := pox o' - pox o). set (dy := poy o' - poy o).
  set (d := mkPose (cos (poth o) * dx + sin (poth o) * dy) (- sin (poth o) * dx + cos (poth o) * dy) (poth o' - poth o)).
  destruct (odom_guess_rigid r o o' d) as (GX & GY & [k GT]).
  { unfold same_pose, compose, act, d. cbn [pox poy poth px py]. pose proof (sin2_cos2 (poth o)) as S. unfold Rsqr in S. repeat split.
    - transitivity (pox o + (sin (poth o) * sin (poth o) + cos (poth o) * cos (poth o)) * dx); [ring|]. rewrite S. unfold dx. ring.
    - transitivity (poy o + (sin (poth o) * sin (poth o) + cos (poth o) * cos (poth o)) * dy); [ring|]. rewrite S. unfold dy. ring.
    - exists 0%Z. cbn. ring. }
  unfold compose, act, d in GX, GY, GT. cbn [pox poy poth px py] in GX, GY, GT.
  assert (Cr : cos (poth r - poth o) = cos (h + e)).
  { replace (poth r - poth o) with (h + e + 2 * PI * IZR n) by lra. apply cos_turn. }
  assert (Sr : sin (poth r - poth o) = sin (h + e)).
  { replace (poth r - poth o) with (h + e + 2 * PI * IZR n) by lra. apply sin_turn. }
  rewrite cos_minus in Cr. rewrite sin_minus in Sr.
  assert (RX : pox r' = pox r + (cos (h + e) * dx - sin (h + e) * dy) + pox c).
  { unfold r', add_correction. cbn [pox]. rewrite <- GX, <- Cr, <- Sr. ra. ring. }
  assert (RY : poy r' = poy r + (sin (h + e) * dx + cos (h + e) * dy) + poy c).
  { unfold r', add_correction. cbn [poy]. rewrite <- GY, <- Cr, <- Sr. ra. ring. }
  split.
  - exists (n - k)%Z. unfold r', add_correction. cbn [poth dead_reckoned]. fold h. rewrite minus_IZR. ra. lra.
  - cbn [dead_reckoned pox poy]. fold h. rewrite RX, RY.
    set (ux := cos (h + e) * dx - sin (h + e) * dy). set (uy := sin (h + e) * dx + cos (h + e) * dy).
    set (vx := cos h * dx - sin h * dy). set (vy := sin h * dx + cos h * dy).
    set (qx := pox r0 + (cos h * (pox o - pox o0) - sin h * (poy o - poy o0))). set (qy := poy r0 + (sin h * (pox o - pox o0) + cos h * (poy o - poy o0))).
    replace (pox r0 + (cos h * (pox o' - pox o0) - sin h * (poy o' - poy o0))) with (qx + vx) by (unfold qx, vx, dx, dy; ring).
    replace (poy r0 + (sin h * (pox o' - pox o0) + cos h * (poy o' - poy o0))) with (qy + vy) by (unfold qy, vy, dx, dy; ring).
    eapply Rle_trans; [apply (triangle _ _ _ _ (pox r + ux) (poy r + uy))|].
    rewrite (dist_shift (pox r + ux) (poy r + uy)). pose proof (dist_box l (pox c) (poy c) Hl Cx Cy) as B1.
    assert (B2 : dist_euc (pox r + ux) (poy r + uy) (qx + vx) (qy + vy) <= dist_euc (pox r) (poy r) qx qy + Rabs e * dist_euc (pox o) (poy o) (pox o') (poy o')).
    { eapply Rle_trans; [apply (triangle _ _ _ _ (pox r + vx) (poy r + vy))|]. rewrite (dist_both (pox r) (poy r)).
      replace (dist_euc (pox r + ux) (poy r + uy) (pox r + vx) (poy r + vy)) with (dist_euc ux uy vx vy) by (unfold dist_euc; f_equal; unfold Rsqr; ring).
      pose proof (rot_small h e dx dy) as B. fold ux uy vx vy in B.
      replace (dist_euc (pox o) (poy o) (pox o') (poy o')) with (dist_euc 0 0 dx dy) by (unfold dist_euc, dx, dy; f_equal; unfold Rsqr; ring). lra. }
    lra.
Qed.

Lemma chain_next {T} {A : Arith T} (L : pose T -> Prop) ps k r o r' o' : chain L [] ps -> nth_error ps k = Some (r, o) -> nth_error ps (S k) = Some (r', o') ->
  exists c, L c /\ r' = add_correction (odom_guess r o o') c.
Proof.
  intros C N N'. destruct (nth_error_split ps (S k) N') as (l1 & l2 & E & H1). subst ps. apply chain_app in C. destruct C as [_ C]. cbn [app chain] in C.
  destruct C as [F _]. rewrite nth_error_app1 in N by lia. destruct F as [(-> & _)|(l & r1 & o1 & c & E & Hc & Q)]; [discriminate H1|].
  subst l1. rewrite app_length in H1. cbn in H1. rewrite nth_error_app2 in N by lia. replace (k - List.length l)%nat with O in N by lia. injection N as <- <-.
  exists c. split; assumption.
Qed.
Lemma chain_first {T} {A : Arith T} (L : pose T -> Prop) r o ps : chain L [] ((r, o) :: ps) -> r = pose0.
Proof. intros [[(_ & E)|(l & r1 & o1 & c & E & _)] _]; [exact E|]. destruct l; discriminate E. Qed.

Lemma way_snoc l p q : way (l ++ [p; q]) = way (l ++ [p]) + dist_euc (pox p) (poy p) (pox q) (poy q).
Proof.
  induction l as [|a l IH]; cbn [app way]; [lra|]. destruct l as [|b l]; cbn [app] in *; cbn [way] in *; lra.
Qed.
Lemma way_pos l : 0 <= way l.
Proof. induction l as [|a [|b l] IH]; cbn [way] in *; try lra. pose proof (dist_pos (pox a) (poy a) (pox b) (poy b)). lra. Qed.

Lemma firstn_snoc {X} (l : list X) k x : nth_error l k = Some x -> firstn (S k) l = firstn k l ++ [x].
Proof.
  revert l. induction k as [|k IH]; intros [|y l] H; try discriminate H; [injection H as ->; reflexivity|]. cbn [firstn app]. f_equal. apply IH. exact H.
Qed.

(** ** The drift of a chain of guesses and corrections *)
Lemma chain_drift (l a : R) (ps : list (pose R * pose R)) r0 o0 : 0 <= l -> 0 <= a ->
  chain (fun c => Rabs (pox c) <= l /\ Rabs (poy c) <= l /\ Rabs (poth c) <= a) [] ps -> nth_error ps 0 = Some (r0, o0) ->
  forall k r o, nth_error ps k = Some (r, o) ->
  let d := dead_reckoned r0 o0 o in
  exists e, Rabs e <= INR k * a /\ same_heading (poth r) (poth d + e) /\
    dist_euc (pox r) (poy r) (pox d) (poy d) <= INR k * (sqrt 2 * l) + INR k * a * way (map snd (firstn (S k) ps)).
Proof.
  intros Hl Ha C N0 k. induction k as [|k IH]; intros r o N d.
  { rewrite N0 in N. injection N as <- <-. exists 0. subst d. unfold dead_reckoned. cbn [pox poy poth INR]. rewrite Rabs_R0. split; [lra|]. split; [exists 0%Z; cbn; ring|].
    replace (dist_euc _ _ _ _) with 0; [lra|]. symmetry. unfold dist_euc. rewrite <- sqrt_0 at 1. f_equal. unfold Rsqr. ring. }
  destruct (nth_error ps k) as [[r1 o1]|] eqn:N1.
  2:{ apply nth_error_None in N1. assert (S k < List.length ps)%nat by (apply nth_error_Some; congruence). lia. }
  destruct (IH r1 o1 eq_refl) as (e & He & Hh & Hd). clear IH. destruct (chain_next _ ps k r1 o1 r o C N1 N) as (c & (C1 & C2 & C3) & ->).
  destruct (one_message r0 o0 r1 o1 o c e l Hl C1 C2 Hh) as [Hh' Hd']. exists (e + poth c). rewrite S_INR. split.
  { pose proof (Rabs_triang e (poth c)). lra. }
  split; [exact Hh'|]. eapply Rle_trans; [exact Hd'|].
  rewrite (firstn_snoc ps (S k) _ N), map_app. rewrite (firstn_snoc ps k _ N1) in Hd |- *. rewrite map_app in *. cbn [map snd] in *. rewrite <- app_assoc. cbn [app].
  rewrite way_snoc. set (w := way (map snd (firstn k ps) ++ [o1])) in *. set (s := dist_euc (pox o1) (poy o1) (pox o) (poy o)) in *.
  assert (W : 0 <= w) by apply way_pos. assert (S0 : 0 <= s) by apply dist_pos.
  pose proof (pos_INR k) as Pk. assert (Rabs e * s <= INR k * a * s) by (apply Rmult_le_compat_r; assumption).
  assert (0 <= a * (w + s)) by (apply Rmult_le_pos; lra). cbn zeta in Hd. lra.
Qed.

(** ** The node *)

Lemma drift_L (cf : config R) (l a : R) : tries cf l a -> forall r (k : matcher R) s score c cov, same_settings k (en_local cf r) ->
  match_scan (en_fuel cf) k s origin (en_garbage cf) = Ok (score, c, cov) -> Rabs (pox c) <= l /\ Rabs (poy c) <= l /\ Rabs (poth c) <= a.
Proof.
  intros Hw r k s score c cov S M. destruct (Hw r) as (C & Hl & Ha). apply match_within_R in M; [|exact (same_counting_R k _ S C)].
  apply (same_within_R k (en_local cf r)) in M; [|exact S]. destruct M as (M1 & M2 & M3). repeat split; lra.
Qed.

Theorem C180_drift_bounded (cf : config R) (l a : R) : tries cf l a -> cf_filter cf = None -> cf_enable cf = true -> cf_file cf = None ->
  forall m, reach_if cf odometry_only m -> let ps := tracked (sh_trace (mp_sh m)) in
  forall r0 o0, nth_error ps 0 = Some (r0, o0) -> r0 = mkPose 0 0 0 /\
  forall k r o, nth_error ps k = Some (r, o) -> let d := dead_reckoned r0 o0 o in
  exists e, Rabs e <= INR k * a /\ same_heading (poth r) (poth d + e) /\
    dist_euc (pox r) (poy r) (pox d) (poy d) <= INR k * (sqrt 2 * l) + INR k * a * way (map snd (firstn (S k) ps)).
Proof.
  intros Hw F E N m R ps r0 o0 N0. subst ps. destruct (drift_reach cf _ (drift_L cf l a Hw) F E N m R) as (_ & C & _).
  split; [destruct (tracked (sh_trace (mp_sh m))) as [|p ps]; [discriminate N0|]; injection N0 as ->; exact (chain_first _ _ _ _ C)|].
  intros k r o Nk. destruct (Hw 0) as (_ & H1 & H2). apply (chain_drift l a); try assumption; [pose proof (Rabs_pos (k_lin_size (en_local cf 0))); lra|pose proof (Rabs_pos (k_ang_size (en_local cf 0))); lra].
Qed.
Print Assumptions C180_drift_bounded.

(** With the parameters of the node not set: at most 5 cm along each axis and 0.1
    rad for each scan. *)
Theorem C180_default_drift eig search ceres fuel garbage : forall m, reach_if (default_config eig search ceres fuel garbage) odometry_only m ->
  let ps := tracked (sh_trace (mp_sh m)) in
  forall r0 o0, nth_error ps 0 = Some (r0, o0) -> forall k r o, nth_error ps k = Some (r, o) -> let d := dead_reckoned r0 o0 o in
  exists e, Rabs e <= INR k / 10 /\ same_heading (poth r) (poth d + e) /\
    dist_euc (pox r) (poy r) (pox d) (poy d) <= INR k * (sqrt 2 / 20) + INR k / 10 * way (map snd (firstn (S k) ps)).
Proof.
  intros m R ps r0 o0 N0 k r o N d.
  destruct (C180_drift_bounded (default_config eig search ceres fuel garbage) (1 / 20) (1 / 10)) with (m := m) (r0 := r0) (o0 := o0) as [_ H]; try assumption; try reflexivity.
  - intro r1. cbn [en_local default_config]. unfold matcher_default, counting_R. cbn [k_ang_res k_lin_res k_lin_size k_ang_size]. ra.
    split; [lra|]. split; rewrite Rabs_pos_eq; lra.
  - destruct (H k r o N) as (e & H1 & H2 & H3). exists e. split; [lra|]. split; [exact H2|]. fold ps d in H3 |- *. lra.
Qed.
Print Assumptions C180_default_drift.

(** A node whose matcher looks at no other pose: two scans at any distance, placed
    exactly where odometry says. *)
Example C180_nonvacuous : tries drift_cf 0 0 /\ cf_filter drift_cf = None /\ cf_enable drift_cf = true /\ cf_file drift_cf = None /\
  forall x, 1 <= x -> exists m r, reach_if drift_cf odometry_only m /\
    tracked (sh_trace (mp_sh m)) = [(mkPose 0 0 0, mkPose 0 0 0); (r, mkPose x 0 0)] /\ pox r = x /\ poy r = 0 /\ same_heading (poth r) 0.
Proof.
  assert (W : tries drift_cf 0 0) by (intro r; cbn; unfold counting_R; cbn; rewrite Rabs_R0; lra).
  split; [exact W|]. do 3 (split; [reflexivity|]). intros x Hx. destruct (two_used x Hx) as (m & r & E & Tr). exists m, r.
  assert (R : reach_if drift_cf odometry_only m).
  { unfold run in E. destruct (mapper_init drift_cf) as [m0|] eqn:Mi; [|discriminate E]. cbn [bind] in E.
    apply (exec_reach_R drift_cf odometry_only _ m0 m) in E; [exact E| |apply reach_init; exact Mi].
    intros l I m1. cbn in I. repeat (destruct I as [<-|I]; [split; [intros a f; discriminate|intro; discriminate]|]). destruct I. }
  split; [exact R|]. split; [exact Tr|].
  destruct (C180_drift_bounded drift_cf 0 0 W eq_refl eq_refl eq_refl m R (mkPose 0 0 0) (mkPose 0 0 0)) as [_ H]; [rewrite Tr; reflexivity|].
  destruct (H 1%nat r (mkPose x 0 0)) as (e & He & Hh & Hd); [rewrite Tr; reflexivity|]. cbn [dead_reckoned pox poy poth INR] in *.
  replace (0 - 0) with 0 in * by ring. rewrite cos_0, sin_0 in *. assert (E0 : e = 0) by (destruct (Req_dec e 0) as [Q|Q]; [exact Q|apply Rabs_pos_lt in Q; lra]). subst e.
  assert (D : dist_euc (pox r) (poy r) x 0 <= 0) by (eapply Rle_trans; [|eapply Rle_trans; [exact Hd|right; ring]]; right; f_equal; ring).
  assert (P : pox r - x = 0 /\ poy r - 0 = 0).
  { apply Rplus_sqr_eq_0. unfold dist_euc in D. apply Rle_antisym; [|apply Rplus_le_le_0_compat; apply Rle_0_sqr].
    destruct (Rle_lt_dec (Rsqr (pox r - x) + Rsqr (poy r - 0)) 0) as [Q|Q]; [exact Q|]. apply sqrt_lt_R0 in Q. lra. }
  destruct P. split; [lra|]. split; [lra|]. destruct Hh as [k Hk]. exists k. rewrite Hk. ring.
Qed.
