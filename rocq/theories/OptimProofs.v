(** The cost of the problem is the error of the map. *)

From Coq Require Import ZArith Reals List Lia Lra.
From Verif Require Import Outcome Arith TypesModel ScanModel ConstraintModel SolverModel GraphModel
  SpecPose SpecLaser SpecSolver SpecMapper4 SpecOptim ConstraintProofs SolverProofs PropConstraint.
Import ListNotations.
Local Open Scope R_scope.

Lemma sum_le0 : forall (l : list R), Forall (fun x => 0 <= x) l -> fold_right Rplus 0 l <= 0 -> Forall (fun x => x = 0) l.
Proof.
  assert (P : forall l, Forall (fun x => 0 <= x) l -> 0 <= fold_right Rplus 0 l).
  { induction 1; cbn; [lra|]. lra. }
  induction 1 as [|x l Hx Hl IH]; intro H; [constructor|].
  cbn in H. pose proof (P l Hl). constructor; [lra|]. apply IH. lra.
Qed.

Lemma sqnorm3_nonneg : forall r, 0 <= sqnorm3 r.
Proof.
  intro r. unfold sqnorm3.
  pose proof (Rle_0_sqr (v0 r)); pose proof (Rle_0_sqr (v1 r)); pose proof (Rle_0_sqr (v2 r)).
  unfold Rsqr in *. lra.
Qed.
Lemma sqnorm3_zero : forall r, sqnorm3 r = 0 -> r = mkVec3 0 0 0.
Proof.
  intros (x, y, z) H. unfold sqnorm3 in H. cbn in H.
  pose proof (Rle_0_sqr x) as X; pose proof (Rle_0_sqr y) as Y; pose proof (Rle_0_sqr z) as Z.
  unfold Rsqr in *. assert (x * x = 0 /\ y * y = 0 /\ z * z = 0) as (A & B & C) by lra.
  apply Rmult_integral in A. apply Rmult_integral in B. apply Rmult_integral in C.
  destruct A as [-> | ->], B as [-> | ->], C as [-> | ->]; reflexivity.
Qed.

(** The nodes hold the poses of the scans. *)
Definition holds (ns : nodes R) (scans : list (scan R)) : Prop :=
  forall i s, nth_error scans i = Some s -> nodes_find ns (scan_key s) = Some (pose_vec (s_pose s)).

Lemma cost_is_error : forall ns scans cs blocks, holds ns scans ->
  Forall2 (block_for (int_ids scans)) cs blocks -> problem_cost blocks ns = map_error cs scans.
Proof.
  intros ns scans cs blocks H F. unfold problem_cost, map_error.
  induction F as [|c b cs bs (E1 & E2 & _ & E3 & _ & E4) F IH]; [reflexivity|].
  cbn [map fold_right]. rewrite IH. f_equal.
  unfold block_cost, edge_error.
  destruct (nth_ids_inv _ _ _ E3) as (sa & Ha & Ka). destruct (nth_ids_inv _ _ _ E4) as (sb & Hb & Kb).
  rewrite Ha, Hb. rewrite <- Ka, <- Kb, (H _ _ Ha), (H _ _ Hb), E1, E2. reflexivity.
Qed.

Section Call.
Variables (ceres : ceres_oracle R) (st : solver R) (cs : list (constraint R)) (scans : list (scan R)).
Hypotheses (KN : keeps_nodes ceres) (NW : never_worse ceres)
  (ND : NoDup (int_ids scans)) (OK : solver_ok cs (int_ids scans) st).

Lemma same_ids : forall ns, int_ids (map (write_back ns) scans) = int_ids scans.
Proof. intro ns. unfold int_ids. rewrite map_map. apply map_ext. intro s. destruct (write_back_same ns s) as (-> & _). reflexivity. Qed.

Lemma optimize_cost : forall b st' scans', optimize ceres st cs scans = Ok (b, st', scans') ->
  map_error cs scans' <= map_error cs scans.
Proof.
  intros b st' scans' O.
  destruct (optimize_inv _ _ _ _ _ _ _ O) as [(-> & _ & _ & ->)|(_ & p & P & Eb & _ & Es)]; [lra|].
  destruct b; [|subst; lra].
  destruct (prepare_ok _ _ _ _ OK P) as (Q & _).
  destruct (prepare_inv _ _ _ _ P) as (bs & s0 & _ & _ & _ & _ & NN & _).
  assert (V : holds (sv_nodes p) scans).
  { intros i s Hi. rewrite NN. apply update_nodes_value; [exact ND|]. eapply nth_error_In; exact Hi. }
  set (ns := snd (ceres (sv_blocks p) (sv_const p) (sv_nodes p))) in *.
  assert (V' : holds ns scans').
  { intros i s' Hi. rewrite Es, nth_error_map in Hi. destruct (nth_error scans i) as [s|] eqn:Hs; [|discriminate].
    cbn [option_map] in Hi. injection Hi as <-.
    assert (K : scan_key (write_back ns s) = scan_key s).
    { unfold scan_key. destruct (write_back_same ns s) as (-> & _). reflexivity. }
    rewrite K. unfold write_back. destruct (nodes_find ns (scan_key s)) as [v|] eqn:E.
    - cbn. destruct v; reflexivity.
    - exfalso. apply (KN (sv_blocks p) (sv_const p) (sv_nodes p) (scan_key s)); [|exact E].
      rewrite (V _ _ Hs). discriminate. }
  rewrite <- (cost_is_error _ _ _ _ V Q).
  rewrite <- (cost_is_error ns scans' cs (sv_blocks p) V').
  - apply NW. symmetry. exact Eb.
  - rewrite Es, same_ids. exact Q.
Qed.

End Call.

Lemma as_measured_end : forall c a b a' b', same_pose a' a -> as_measured c a b -> as_measured c a' b' -> same_pose b' b.
Proof.
  intros c a b a' b' (X & Y & H) (B1 & B2 & B3) (B1' & B2' & B3').
  unfold same_pose. cbn [compose act px py pox poy poth] in *. destruct H as (k & Hk).
  rewrite Hk, cos_turn, sin_turn in *. rewrite X, Y in *. split; [lra|]. split; [lra|].
  eapply same_heading_trans; [exact B3'|]. apply same_heading_sym. eapply same_heading_trans; [exact B3|].
  exists (- k)%Z. rewrite opp_IZR. ring.
Qed.

Lemma as_measured_begin : forall c a b a' b', same_pose b' b -> as_measured c a b -> as_measured c a' b' -> same_pose a' a.
Proof.
  intros c a b a' b' (X & Y & H) (B1 & B2 & B3) (B1' & B2' & B3').
  unfold same_pose. cbn [compose act px py pox poy poth] in *.
  assert (Hh : same_heading (poth a') (poth a)).
  { destruct H as (k & Hk), B3 as (j & Hj), B3' as (i & Hi). exists (k + j - i)%Z.
    rewrite minus_IZR, plus_IZR. lra. }
  destruct Hh as (k & Hk). rewrite Hk, cos_turn, sin_turn in *. split; [lra|]. split; [lra|].
  exists k. reflexivity.
Qed.

Lemma agrees_error : forall cs scans, agrees cs scans -> map_error cs scans = 0.
Proof.
  intros cs scans H. unfold map_error. induction H as [|c cs (P & H) _ IH]; [reflexivity|].
  cbn [map fold_right]. rewrite IH. unfold edge_error.
  destruct (nth_error scans (Z.to_nat (c_begin c))) as [a|] eqn:Ea; [|ring].
  destruct (nth_error scans (Z.to_nat (c_end c))) as [b|] eqn:Eb; [|ring].
  rewrite (proj2 (C29_zero_residual_only_there c (s_pose a) (s_pose b) P) (H a b eq_refl eq_refl)).
  unfold sqnorm3. cbn. ring.
Qed.

Lemma error_agrees : forall cs scans, Forall (fun c => pos_def3 (c_information c)) cs ->
  map_error cs scans <= 0 -> agrees cs scans.
Proof.
  intros cs scans P H. unfold map_error in H. apply sum_le0 in H.
  - rewrite Forall_map in H. unfold agrees. rewrite Forall_forall in *. intros c Hc. split; [exact (P c Hc)|].
    intros a b Ha Hb. specialize (H c Hc). unfold edge_error in H. rewrite Ha, Hb in H.
    apply sqnorm3_zero in H. exact (proj1 (C29_zero_residual_only_there c (s_pose a) (s_pose b) (P c Hc)) H).
  - rewrite Forall_map. apply Forall_forall. intros c _. unfold edge_error.
    destruct (nth_error scans (Z.to_nat (c_begin c))); [|lra].
    destruct (nth_error scans (Z.to_nat (c_end c))); [|lra]. apply sqnorm3_nonneg.
Qed.

Lemma linked_stay : forall (g : graph R) scans', List.length scans' = List.length (gr_scans g) ->
  Forall (fun c => c_begin c < Z.of_nat (List.length (gr_scans g)) /\ c_end c < Z.of_nat (List.length (gr_scans g)))%Z (gr_constraints g) ->
  agrees (gr_constraints g) (gr_scans g) -> agrees (gr_constraints g) scans' ->
  (forall a a', nth_error (gr_scans g) 0 = Some a -> nth_error scans' 0 = Some a' -> s_pose a' = s_pose a) ->
  forall i, linked g i -> forall a a', nth_error (gr_scans g) (Z.to_nat i) = Some a ->
  nth_error scans' (Z.to_nat i) = Some a' -> same_pose (s_pose a') (s_pose a).
Proof.
  intros g scans' L B A A' F i K. unfold agrees in *. rewrite Forall_forall in *.
  assert (G : forall l : list (scan R), List.length l = List.length (gr_scans g) ->
    forall j, (j < Z.of_nat (List.length (gr_scans g)))%Z -> (0 < List.length (gr_scans g))%nat ->
    exists s, nth_error l (Z.to_nat j) = Some s).
  { intros l Hl j Hj H0. destruct (nth_error l (Z.to_nat j)) eqn:E; [eauto|].
    apply nth_error_None in E. lia. }
  assert (Z0 : forall (l : list (scan R)) j s, nth_error l j = Some s -> (0 < List.length l)%nat).
  { intros l j s H. assert (j < List.length l)%nat by (apply nth_error_Some; congruence). lia. }
  induction K as [|c Hc K IH|c Hc K IH]; intros a a' Ha Ha'.
  - rewrite (F a a' Ha Ha'). split; [reflexivity|]. split; [reflexivity|]. apply same_heading_refl.
  - destruct (B c Hc) as (B1 & B2). pose proof (Z0 _ _ _ Ha) as N.
    destruct (G (gr_scans g) eq_refl _ B1 N) as (s & Hs). destruct (G scans' L _ B1 N) as (s' & Hs').
    eapply as_measured_end; [exact (IH _ _ Hs Hs')| |].
    + exact (proj2 (A c Hc) _ _ Hs Ha).
    + exact (proj2 (A' c Hc) _ _ Hs' Ha').
  - destruct (B c Hc) as (B1 & B2). pose proof (Z0 _ _ _ Ha) as N.
    destruct (G (gr_scans g) eq_refl _ B2 N) as (s & Hs). destruct (G scans' L _ B2 N) as (s' & Hs').
    eapply as_measured_begin; [exact (IH _ _ Hs Hs')| |].
    + exact (proj2 (A c Hc) _ _ Ha Hs).
    + exact (proj2 (A' c Hc) _ _ Ha' Hs').
Qed.
