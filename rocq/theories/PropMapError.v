(** Property C173: what the error of a map says. *)

From Coq Require Import ZArith Reals List Bool Lia Lra.
From Verif Require Import Outcome Arith TypesModel ScanModel ConstraintModel GraphModel SolverModel SpecPose SpecLaser SpecMapper4 SpecSolver
  SpecOptim SpecMapError RTactics ConstraintProofs PropConstraint SolverProofs OptimProofs PropOptim.
Import ListNotations.
Local Open Scope R_scope.

(** C173: the error is never negative, and zero exactly for the maps that agree
    with all constraints. *)
Theorem C173_zero : forall cs scans, Forall (fun c => pos_def3 (c_information c)) cs ->
  0 <= map_error cs scans /\ (map_error cs scans = 0 <-> agrees cs scans).
Proof.
  intros cs scans P. assert (N : 0 <= map_error cs scans).
  { unfold map_error. clear P. induction cs as [|c cs IH]; cbn [map fold_right]; [lra|]. unfold edge_error at 1.
    destruct (nth_error scans (Z.to_nat (c_begin c))) as [a|]; [|lra]. destruct (nth_error scans (Z.to_nat (c_end c))) as [b|]; [|lra].
    pose proof (sqnorm3_nonneg (constraint_residual c (s_pose a) (s_pose b))). lra. }
  split; [exact N|]. split; [|apply agrees_error]. intro H. apply error_agrees; [exact P|]. lra.
Qed.

(** C173: it does not depend on where the map lies. *)
Lemma Forall2_nth {X Y} (Q : X -> Y -> Prop) l l' : Forall2 Q l l' -> forall i,
  match nth_error l i, nth_error l' i with Some x, Some y => Q x y | None, None => True | _, _ => False end.
Proof. intro F. induction F as [|x y l l' H F IH]; intros [|i]; cbn [nth_error]; auto. apply IH. Qed.

Theorem C173_moved : forall g cs scans scans', map_moved g scans scans' -> map_error cs scans' = map_error cs scans.
Proof.
  intros g cs scans scans' M. unfold map_error. f_equal. apply map_ext. intro c. unfold edge_error.
  pose proof (Forall2_nth _ _ _ M (Z.to_nat (c_begin c))) as B. pose proof (Forall2_nth _ _ _ M (Z.to_nat (c_end c))) as E.
  destruct (nth_error scans (Z.to_nat (c_begin c))), (nth_error scans' (Z.to_nat (c_begin c))); try contradiction; [|reflexivity].
  destruct (nth_error scans (Z.to_nat (c_end c))), (nth_error scans' (Z.to_nat (c_end c))); try contradiction; [|reflexivity].
  rewrite B, E, C30_residual_frame_invariant. reflexivity.
Qed.

(** C173: trusting all constraints [k] times as much multiplies the error by [k]. *)
Lemma pos_def_times k m : 0 < k -> pos_def3 m -> pos_def3 (times_matrix k m).
Proof.
  intros K ((S1 & S2 & S3) & P). split.
  - unfold symmetric3, times_matrix. cbn. rewrite S1, S2, S3. auto.
  - intros r H. specialize (P r H). apply (Rmult_lt_compat_l k) in P; [|exact K]. rewrite Rmult_0_r in P.
    eapply Rlt_le_trans; [exact P|]. right. unfold quad3, times_matrix. cbn. ring.
Qed.

Lemma sq_inj a b : 0 < a -> 0 < b -> a * a = b * b -> a = b.
Proof. intros A B E. assert (H : (a - b) * (a + b) = 0) by (ring_simplify; nra). apply Rmult_integral in H. lra. Qed.

Lemma llt_times k m : 0 < k -> pos_def3 m -> llt_L (times_matrix k m) = times_matrix (sqrt k) (llt_L m).
Proof.
  intros K P. assert (S : 0 < sqrt k) by (apply sqrt_lt_R0; exact K). assert (Q : sqrt k * sqrt k = k) by (apply sqrt_sqrt; lra).
  destruct (pos_def_llt m P) as (a & b & c & d & e & f & E & A0 & A1 & A2 & F).
  destruct (pos_def_llt _ (pos_def_times k m K P)) as (a' & b' & c' & d' & e' & f' & E' & A0' & A1' & A2' & F').
  rewrite E' in *. rewrite E in *. rewrite F in F'. clear E E' F P.
  unfold times_matrix, mul3 in *. cbn [a00 a01 a02 a10 a11 a12 a20 a21 a22] in *.
  set (q := sqrt k) in *. clearbody q. rewrite <- Q in F'. clear Q K.
  injection F' as H00 _ _ H10 H11 _ H20 H21 H22.
  assert (Ea : a' = q * a) by (apply sq_inj; [lra|nra|nra]).
  assert (Eb : b' = q * b) by (subst a'; apply (Rmult_eq_reg_r (q * a)); [nra|nra]).
  assert (Ed : d' = q * d) by (subst a'; apply (Rmult_eq_reg_r (q * a)); [nra|nra]).
  assert (Ec : c' = q * c) by (subst b'; apply sq_inj; [lra|nra|nra]).
  assert (Ee : e' = q * e) by (subst b' d' c'; apply (Rmult_eq_reg_r (q * c)); [nra|nra]).
  assert (Ef : f' = q * f) by (subst d' e'; apply sq_inj; [lra|nra|nra]).
  subst. f_equal; ring.
Qed.

Lemma residual_times k c c' a b : 0 < k -> pos_def3 (c_information c) -> trusted k c c' ->
  sqnorm3 (constraint_residual c' a b) = k * sqnorm3 (constraint_residual c a b).
Proof.
  intros K P (_ & _ & T & I). unfold constraint_residual. rewrite T, I, llt_times by assumption.
  assert (Q : sqrt k * sqrt k = k) by (apply sqrt_sqrt; lra). set (q := sqrt k) in *. clearbody q. rewrite <- Q.
  unfold residual, mat3_vec, sqnorm3, times_matrix. ra. cbn [a00 a01 a02 a10 a11 a12 a20 a21 a22 v0 v1 v2]. ring.
Qed.

Theorem C173_scaled : forall k cs cs' scans, 0 < k -> Forall (fun c => pos_def3 (c_information c)) cs -> Forall2 (trusted k) cs cs' ->
  map_error cs' scans = k * map_error cs scans.
Proof.
  intros k cs cs' scans K P F. unfold map_error. induction F as [|c c' cs cs' H F IH]; cbn [map fold_right]; [ring|].
  inversion P as [|? ? Pc Pcs]; subst. rewrite (IH Pcs). unfold edge_error at 1 3. destruct H as (B & E & H). rewrite B, E.
  destruct (nth_error scans (Z.to_nat (c_begin c))) as [a|]; [|ring]. destruct (nth_error scans (Z.to_nat (c_end c))) as [b|]; [|ring].
  rewrite (residual_times k c c') by (try assumption; repeat split; tauto). ring.
Qed.

(** C173: hence the comparison of two maps does not change. *)
Theorem C173_same_order : forall k cs cs' m1 m2, 0 < k -> Forall (fun c => pos_def3 (c_information c)) cs -> Forall2 (trusted k) cs cs' ->
  (map_error cs' m1 <= map_error cs' m2 <-> map_error cs m1 <= map_error cs m2).
Proof.
  intros k cs cs' m1 m2 K P F. rewrite !(C173_scaled k cs cs' _ K P F). split; intro H; [apply (Rmult_le_reg_l k); assumption|nra].
Qed.

(** C173: two maps without error are the same map, up to a motion of the whole
    (for the scans the constraints link to the first). *)
Lemma undo_motion (p p' : pose R) : exists g, compose g p = p'.
Proof.
  destruct p as [x y t], p' as [x' y' t']. set (h := t' - t).
  exists (mkPose (x' - (cos h * x - sin h * y)) (y' - (sin h * x + cos h * y)) h). unfold compose, act, h.
  cbn [pox poy poth px py]. f_equal; ring.
Qed.

Theorem C173_unique : forall (g : graph R) scans', length scans' = length (gr_scans g) ->
  Forall (fun c => pos_def3 (c_information c)) (gr_constraints g) ->
  Forall (fun c => c_begin c < Z.of_nat (length (gr_scans g)) /\ c_end c < Z.of_nat (length (gr_scans g)))%Z (gr_constraints g) ->
  map_error (gr_constraints g) (gr_scans g) = 0 -> map_error (gr_constraints g) scans' = 0 ->
  exists m, forall i s s', linked g (Z.of_nat i) -> nth_error (gr_scans g) i = Some s -> nth_error scans' i = Some s' ->
    same_pose (s_pose s') (compose m (s_pose s)).
Proof.
  intros g scans' L P B Z1 Z2. destruct g as [ld scans cs]. cbn [gr_scans gr_constraints] in *.
  destruct scans as [|s0 rest]; [exists (mkPose 0 0 0); intros [|i] s s' _ H; discriminate H|].
  destruct scans' as [|s0' rest']; [discriminate L|].
  destruct (undo_motion (s_pose s0) (s_pose s0')) as (m & Em). exists m.
  set (scans := s0 :: rest) in *.
  set (mv := fun s : scan R => scan_set_pose s (compose m (s_pose s))).
  assert (M : map_moved m scans (map mv scans)).
  { unfold map_moved. clear. induction scans as [|s l IH]; cbn [map]; constructor; [reflexivity|exact IH]. }
  set (h := mkGraph ld (map mv scans) cs).
  assert (K : forall i, linked (mkGraph ld scans cs) i -> linked h i).
  { intros i H. induction H as [|c H _ IH|c H _ IH]; [apply linked_first|eapply linked_forward; eauto|eapply linked_backward; eauto]. }
  intros i s s' Li Hs Hs'. apply (linked_stay h (s0' :: rest')) with (i := Z.of_nat i) (a := mv s).
  - cbn [h gr_scans]. rewrite map_length. exact L.
  - cbn [h gr_scans gr_constraints]. rewrite map_length. exact B.
  - cbn [h gr_scans gr_constraints]. apply (C173_zero cs _ P). rewrite (C173_moved m cs _ _ M). exact Z1.
  - apply (C173_zero cs _ P). exact Z2.
  - cbn [h gr_scans nth_error map scans]. intros a a' Ha Ha'. injection Ha as <-. injection Ha' as <-. symmetry. exact Em.
  - apply K. exact Li.
  - cbn [h gr_scans]. rewrite Nat2Z.id, nth_error_map, Hs. reflexivity.
  - rewrite Nat2Z.id. exact Hs'.
Qed.

(** Two scans one apart, as their constraint says, agree; two apart they do not,
    and trusting the constraint four times as much makes that four times as bad. *)
Example C173_nonvacuous :
  Forall (fun c => pos_def3 (c_information c)) map1_edges /\ map_error map1_edges map1_scans = 0 /\ 0 < map_error map1_edges map2_scans /\
  linked (mkGraph true map1_scans map1_edges) 1%Z /\
  exists cs', Forall2 (trusted 4) map1_edges cs' /\ map_error cs' map2_scans = 4 * map_error map1_edges map2_scans.
Proof.
  assert (P : Forall (fun c => pos_def3 (c_information c)) map1_edges) by (repeat constructor; intros r N; apply (proj2 id_pd r N)).
  split; [exact P|]. split; [apply agrees_error; exact one_agrees|]. split; [exact two_disagrees|].
  split.
  { destruct C139_nonvacuous as (_ & _ & _ & _ & _ & _ & _ & _ & _ & K). exact K. }
  set (w := fun c => mkConstraint (c_begin c) (c_end c) (c_transform c) (times_matrix 4 (c_information c)) false).
  assert (F : Forall2 (trusted 4) map1_edges (map w map1_edges)).
  { generalize map1_edges. intro l. induction l as [|c l IH]; cbn [map]; constructor; [repeat split|exact IH]. }
  exists (map w map1_edges). split; [exact F|]. apply (C173_scaled 4 _ _ _ ltac:(lra) P F).
Qed.
