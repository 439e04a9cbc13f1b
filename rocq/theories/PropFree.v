(** Property C148: which cells a reading of a mounted laser marks as free. *)

From Coq Require Import ZArith Reals List Bool Lia Lra Psatz.
From Flocq Require Import Core BinarySingleNaN.
From Verif Require Import Outcome Arith TypesModel ScanModel OccGridModel SpecGrid SpecRay SpecOcc SpecFree B64Lemmas SingleB64
  NdtProofs RayProofs OccProofs OccProofs2 MapperWitness2 PropOcc.
Import ListNotations.
Local Open Scope R_scope.

(** ** Witness: a wall erased by beams that did not cross it *)
Definition wall_point : point b64 := mkPoint (b64_of 21 (-1)) (b64_of 9 (-1)).
Definition far_point : point b64 := mkPoint (b64_of 41 (-1)) (b64_of 17 (-1)).
Definition wall_scan : scan b64 :=
  mkScan 0 false (mkPose (z64 0) (z64 0) (z64 0)) (mkPose (z64 0) (z64 0) (z64 0)) [wall_point; far_point; far_point; far_point].
Definition mount : point R := mkPoint 0 (17 / 2).
Definition exactly (p : point b64) : point R := mkPoint (B2R (px p)) (B2R (py p)).

Lemma halves (n : Z) : (Z.abs n < 2 ^ 53)%Z -> B2R (b64_of n (-1)) = IZR n / 2.
Proof.
  intros H. assert (V : F2R (Float radix2 n (-1)) = IZR n / 2) by (unfold F2R; cbn [Fnum Fexp]; change (bpow radix2 (-1)) with (/ 2); reflexivity).
  destruct (b64_of_exact n (-1)) as [E _]; rewrite ?V; [apply fmt_half; exact H| |exact E].
  unfold Rdiv. rewrite Rabs_mult, (Rabs_pos_eq (/ 2)), <- abs_IZR by lra. assert (IZR (Z.abs n) <= IZR (2 ^ 53)) by (apply IZR_le; lia).
  change (IZR (2 ^ 53)) with (bpow radix2 53) in *. assert (0 <= IZR (Z.abs n)) by (apply IZR_le; lia). assert (bpow radix2 53 <= bpow radix2 1023) by (apply bpow_le; lia). lra.
Qed.
Lemma exactly_wall : exactly wall_point = mkPoint (21 / 2) (9 / 2).
Proof. unfold exactly, wall_point. cbn [px py]. rewrite !halves by lia. reflexivity. Qed.
Lemma exactly_far : exactly far_point = mkPoint (41 / 2) (17 / 2).
Proof. unfold exactly, far_point. cbn [px py]. rewrite !halves by lia. reflexivity. Qed.

(** C148 is false as stated: the rays are drawn from the origin of the robot, not
    from the laser.  Cells of one metre, threshold 1/4, a laser 8.5 m to the left of
    the origin of the robot; one reading shows a wall, three readings pass it at four
    metres (and hit something else), and the cell of the wall is published as free. *)
Theorem C148_beam_refuted : forall lm : libm, exists o m,
  s_pose wall_scan = mkPose (z64 0) (z64 0) (z64 0) /\ In wall_point (s_pts wall_scan) /\
  (forall p, In p (s_pts wall_scan) -> p <> wall_point -> ~ near_beam 3 mount (exactly p) (exactly wall_point)) /\
  occ_get_msg (A := BA (easy lm)) (occ_new (A := BA (easy lm)) (z64 1) (b64_of 1 (-2))) [wall_scan] = Ok (o, m) /\
  pos_cell (A := BA (easy lm)) (om_ox m) (om_oy m) (z64 1) (px wall_point) (py wall_point) = Ok (15, 9)%Z /\
  nth_error (om_data m) (Z.to_nat (15 + 9 * om_width m)) = Some 0%Z.
Proof.
  intros lm.
  assert (V : match occ_get_msg (A := BA (easy lm)) (occ_new (A := BA (easy lm)) (z64 1) (b64_of 1 (-2))) [wall_scan] with
    | Ok (o, m) => (pos_cell (A := BA (easy lm)) (om_ox m) (om_oy m) (z64 1) (px wall_point) (py wall_point), nth_error (om_data m) (Z.to_nat (15 + 9 * om_width m)))
    | Fault f => (Fault f, None) end = (Ok (15, 9)%Z, Some 0%Z)) by (vm_compute; reflexivity).
  destruct (occ_get_msg (A := BA (easy lm)) (occ_new (A := BA (easy lm)) (z64 1) (b64_of 1 (-2))) [wall_scan]) as [(o & m)|f]; [|discriminate V].
  exists o, m. split; [reflexivity|]. split; [left; reflexivity|]. split.
  - assert (F : ~ near_beam 3 mount (exactly far_point) (exactly wall_point)).
    { rewrite exactly_far, exactly_wall. intros (t & _ & _ & H). unfold mount in H. cbn [px py] in H. apply Rabs_le_inv in H. lra. }
    intros p Hp N. destruct Hp as [<-|[<-|[<-|[<-|[]]]]]; [congruence|exact F|exact F|exact F].
  - split; [reflexivity|]. apply pair_equal_spec. exact V.
Qed.
Print Assumptions C148_beam_refuted.

(** ** What is true *)
Lemma ray_param (s e c : Z * Z) (k : Z) : in_rect s e c -> near_line s e k c -> (0 <= k)%Z ->
  exists t, 0 <= t <= 1 /\
    Rabs (IZR (fst c) - (IZR (fst s) + t * (IZR (fst e) - IZR (fst s)))) <= IZR k / 2 /\
    Rabs (IZR (snd c) - (IZR (snd s) + t * (IZR (snd e) - IZR (snd s)))) <= IZR k / 2.
Proof.
  intros [R1 R2] N K. destruct s as [sx sy], e as [ex ey], c as [cx cy]. unfold near_line, between in *. cbn [fst snd] in *.
  assert (HK : 0 <= IZR k) by (apply IZR_le; exact K).
  assert (P : forall a b x y u v : Z, (Z.min a b <= x <= Z.max a b)%Z -> (a <> b)%Z -> (Z.min u v <= y <= Z.max u v)%Z ->
    (2 * Z.abs ((b - a) * (y - u) - (v - u) * (x - a)) <= k * Z.abs (b - a))%Z ->
    exists t, 0 <= t <= 1 /\ Rabs (IZR x - (IZR a + t * (IZR b - IZR a))) <= IZR k / 2 /\ Rabs (IZR y - (IZR u + t * (IZR v - IZR u))) <= IZR k / 2).
  { intros a b x y u v B D _ Hn.
    assert (Nz : IZR b - IZR a <> 0) by (rewrite <- minus_IZR; apply IZR_neq; lia).
    set (t := (IZR x - IZR a) / (IZR b - IZR a)).
    assert (T : t * (IZR b - IZR a) = IZR x - IZR a) by (unfold t; field; exact Nz).
    exists t. split; [|split].
    - assert (C : (a < b)%Z \/ (b < a)%Z) by lia. destruct C as [C|C].
      + assert (IZR a < IZR b) by (apply IZR_lt; lia). assert (IZR a <= IZR x <= IZR b) by (split; apply IZR_le; lia). split; nra.
      + assert (IZR b < IZR a) by (apply IZR_lt; lia). assert (IZR b <= IZR x <= IZR a) by (split; apply IZR_le; lia). split; nra.
    - rewrite T. replace (IZR x - (IZR a + (IZR x - IZR a))) with 0 by ring. rewrite Rabs_R0. lra.
    - apply IZR_le in Hn. rewrite !mult_IZR, !abs_IZR, !minus_IZR, !mult_IZR, !minus_IZR in Hn.
      pose proof (Rabs_pos_lt _ Nz) as Pz. apply Rmult_le_reg_r with (1 := Pz). rewrite <- Rabs_mult.
      replace ((IZR y - (IZR u + t * (IZR v - IZR u))) * (IZR b - IZR a)) with
        ((IZR b - IZR a) * (IZR y - IZR u) - (IZR v - IZR u) * (t * (IZR b - IZR a))) by ring.
      rewrite T. lra. }
  destruct (Z.le_gt_cases (Z.abs (ey - sy)) (Z.abs (ex - sx))) as [M|M].
  - rewrite Z.max_l in N by exact M. destruct (Z.eq_dec sx ex) as [E|E].
    + assert (sy = ey) by lia. subst ex ey. assert (cx = sx) by lia. assert (cy = sy) by lia. subst cx cy.
      exists 0. split; [lra|]. split; (replace (_ - _) with 0 by ring); rewrite Rabs_R0; lra.
    + apply P; try assumption; lia.
  - rewrite Z.max_r in N by lia.
    destruct (P sy ey cy cx sx ex) as (t & T & A & B); try assumption; try lia.
    exists t. split; [exact T|]. split; assumption.
Qed.

Lemma trunc_cell (o w x : R) (i j : Z) : 0 < w -> (0 <= i)%Z -> in_interval o w i x -> j = Ztrunc ((x - o) / w) -> Rabs (x - (o + (IZR j + / 2) * w)) <= w / 2.
Proof.
  intros W I [L U] E. apply IZR_le in I.
  assert (Q : IZR i <= (x - o) / w) by (apply Rmult_le_reg_r with w; [exact W|]; unfold Rdiv; rewrite Rmult_assoc, Rinv_l, Rmult_1_r; lra).
  rewrite Ztrunc_floor in E by lra.
  pose proof (Zfloor_lb ((x - o) / w)) as F1. pose proof (Zfloor_ub ((x - o) / w)) as F2. rewrite <- E in F1, F2.
  assert (G : x = o + (x - o) / w * w) by (field; lra). set (q := (x - o) / w) in *. apply Rabs_le. split; nra.
Qed.

Lemma mount_close (l : point R) (d : R) (p : pose R) : 0 <= d -> px l * px l + py l * py l <= d * d ->
  Rabs (px (move p l) - pox p) <= d /\ Rabs (py (move p l) - poy p) <= d.
Proof.
  intros D H. unfold move. cbn [px py]. pose proof (sin2_cos2 (poth p)) as U. unfold Rsqr in U.
  set (c := cos (poth p)) in *. set (s := sin (poth p)) in *.
  assert (E : (c * px l - s * py l) * (c * px l - s * py l) + (s * px l + c * py l) * (s * px l + c * py l) = px l * px l + py l * py l).
  { transitivity ((s * s + c * c) * (px l * px l + py l * py l)); [ring|rewrite U; ring]. }
  split.
  - replace (c * px l - s * py l + pox p - pox p) with (c * px l - s * py l) by ring.
    apply Rsqr_incr_0_var; [|exact D]. rewrite <- Rsqr_abs. unfold Rsqr. pose proof (Rle_0_sqr (s * px l + c * py l)) as P. unfold Rsqr in P. lra.
  - replace (s * px l + c * py l + poy p - poy p) with (s * px l + c * py l) by ring.
    apply Rsqr_incr_0_var; [|exact D]. rewrite <- Rsqr_abs. unfold Rsqr. pose proof (Rle_0_sqr (c * px l - s * py l)) as P. unfold Rsqr in P. lra.
Qed.

Lemma coord (w o d a b l c t : R) (sc ec cc : Z) : 0 < w -> 0 <= t <= 1 -> Rabs (l - a) <= d ->
  Rabs (a - (o + (IZR sc + / 2) * w)) <= w / 2 -> Rabs (b - (o + (IZR ec + / 2) * w)) <= w / 2 ->
  Rabs (IZR cc - (IZR sc + t * (IZR ec - IZR sc))) <= 3 / 2 -> c = o + (IZR cc + / 2) * w ->
  Rabs (c - (l + t * (b - l))) <= d + 2 * w.
Proof.
  intros W T L A B C ->. apply Rabs_le_inv in L, A, B, C.
  set (sa := o + (IZR sc + / 2) * w) in *. set (sb := o + (IZR ec + / 2) * w) in *.
  set (k := IZR cc - (IZR sc + t * (IZR ec - IZR sc))) in *.
  replace (o + (IZR cc + / 2) * w - (l + t * (b - l))) with (k * w - (1 - t) * (a - sa) - t * (b - sb) - (1 - t) * (l - a)) by (unfold k, sa, sb; ring).
  assert (K : - (3 / 2 * w) <= k * w <= 3 / 2 * w) by (split; nra).
  assert (P1 : - ((1 - t) * (w / 2)) <= (1 - t) * (a - sa) <= (1 - t) * (w / 2)) by (split; nra).
  assert (P2 : - (t * (w / 2)) <= t * (b - sb) <= t * (w / 2)) by (split; nra).
  assert (D : 0 <= d) by lra.
  assert (P3 : - d <= (1 - t) * (l - a) <= d) by (split; nra).
  apply Rabs_le. lra.
Qed.

Lemma beam_pairs (l : point R) (P : point R * point R -> point R * point R -> Prop) (scans : list (scan R)) :
  (forall s q, In s scans -> In q (world s) -> P (sensor s, q) (move (s_pose s) l, q)) -> Forall2 P (beams scans) (laser_beams l scans).
Proof.
  induction scans as [|s scans IH]; intros H; [constructor|]. cbn [beams laser_beams flat_map]. apply Forall2_app.
  - assert (G : forall q, In q (world s) -> P (sensor s, q) (move (s_pose s) l, q)) by (intros q; apply H; left; reflexivity).
    clear H IH. induction (world s) as [|q qs IHq]; [constructor|]. constructor; [apply G; left; reflexivity|apply IHq; intros; apply G; right; assumption].
  - apply IH. intros s' q Hs. apply H. right. exact Hs.
Qed.

Lemma forall2_chain {X Y Z W : Type} (P : X -> Y -> Prop) (Q : X -> Z -> Prop) (R : Z -> W -> Prop) (S : Y -> W -> Prop) :
  (forall x y z w, P x y -> Q x z -> R z w -> S y w) -> forall xs ys zs ws, Forall2 P xs ys -> Forall2 Q xs zs -> Forall2 R zs ws -> Forall2 S ys ws.
Proof.
  intros H xs ys zs ws F. revert zs ws. induction F as [|x y xs ys Hp F IH]; intros zs ws G K.
  - inversion G; subst. inversion K; subst. constructor.
  - inversion G; subst. inversion K; subst. constructor; [eapply H; eassumption|eapply IH; eassumption].
Qed.

(** The marks of the message are those of C39; every free cell is within the
    distance of the laser from the origin of the robot, plus two cells, of its beam. *)
Theorem C148_beam_partial : forall (o o' : occ R) scans m (l : point R) (d : R), occ_get_msg o scans = Ok (o', m) ->
  0 < om_resolution m -> (forall p, In p (worlds scans) -> covers m p) -> (forall s, In s scans -> covers m (sensor s)) ->
  0 <= d -> px l * px l + py l * py l <= d * d ->
  exists ms,
    (forall k v, nth_error (om_data m) k = Some v ->
      let h := hits (om_width m) ms k in
      let n := (h + frees (om_width m) ms k)%nat in
      (v = 100%Z <-> (0 < n)%nat /\ og_thresh o < INR h / INR n) /\ (v = (-1)%Z <-> n = 0%nat)) /\
    Forall2 (fun b t => Forall (fun c => near_beam (d + 2 * om_resolution m) (fst b) (snd b) (middle m c)) (fst t)) (laser_beams l scans) ms.
Proof.
  intros o o' scans m l d E W Cp Cs D H.
  destruct (C39_cell_values o o' scans m E) as (rays & ms & F1 & F2 & V).
  exists ms. split; [intros k v Hk; destruct (V k v Hk) as (_ & V1 & V2); split; assumption|].
  assert (F3 : Forall2 (fun b lb => snd lb = snd b /\ covers m (fst b) /\ covers m (snd b) /\ Rabs (px (fst lb) - px (fst b)) <= d /\ Rabs (py (fst lb) - py (fst b)) <= d)
    (beams scans) (laser_beams l scans)).
  { apply beam_pairs. intros s q Hs Hq. cbn [fst snd]. split; [reflexivity|]. split; [apply Cs; exact Hs|]. split.
    - apply Cp. unfold worlds. apply in_flat_map. exists s. split; assumption.
    - apply mount_close; assumption. }
  refine (forall2_chain _ _ _ _ _ _ _ _ _ F3 F1 F2).
  intros (a & b) (la & lb) (r0 & r1) (free & hit) (E1 & (i0 & j0 & I0 & J0 & S0) & (i1 & j1 & I1 & J1 & S1) & L1 & L2) ((A1 & A2) & (B1 & B2)) T. cbn [fst snd] in *. subst lb.
  destruct (C81_free_cells_on_line_partial r0 r1 free hit T) as [N _].
  assert (Rc : Forall (in_rect r0 r1) free).
  { destruct (C37_ray_confined r0 r1) as (fr & hi & T' & Rc & _).
    - unfold trace_ray in T. destruct r0 as [x0 y0], r1 as [x1 y1]. cbn [fst snd].
      destruct (Z.ltb_spec (2 * (Z.abs (x1 - x0) - - Z.abs (y1 - y0))) (2 ^ 31)); [lia|discriminate T].
    - rewrite T in T'. injection T' as <- <-. exact Rc. }
  apply Forall_forall. intros c Hc. rewrite Forall_forall in N, Rc.
  destruct (ray_param r0 r1 c 3 (Rc c Hc) (N c Hc)) as (t & Ht & X & Y); [lia|].
  exists t. split; [exact Ht|]. destruct S0 as [S0x S0y]. destruct S1 as [S1x S1y]. split.
  - apply (coord (om_resolution m) (om_ox m) d (px a) (px b) (px la) _ t (fst r0) (fst r1) (fst c)); try assumption; try reflexivity.
    + apply (trunc_cell _ _ _ i0); try assumption; lia.
    + apply (trunc_cell _ _ _ i1); try assumption; lia.
  - apply (coord (om_resolution m) (om_oy m) d (py a) (py b) (py la) _ t (snd r0) (snd r1) (snd c)); try assumption; try reflexivity.
    + apply (trunc_cell _ _ _ j0); try assumption; lia.
    + apply (trunc_cell _ _ _ j1); try assumption; lia.
Qed.
Print Assumptions C148_beam_partial.

Example C148_nonvacuous : exists o m, occ_get_msg (occ_new 1 (1 / 2)) [OccWitness.ray_scan 0 3] = Ok (o, m) /\
  0 < om_resolution m /\ (forall p, In p (worlds [OccWitness.ray_scan 0 3]) -> covers m p) /\
  (forall s, In s [OccWitness.ray_scan 0 3] -> covers m (sensor s)) /\ laser_beams (mkPoint 0 1) [OccWitness.ray_scan 0 3] <> [].
Proof.
  destruct C40_nonvacuous as [G S].
  destruct (C40_grid_contains_scans_partial 1 (1 / 2) [OccWitness.ray_scan 0 3] Rlt_0_1 G S) as (m & E & _ & _ & P & Q).
  exists (batch 1 (1 / 2) [OccWitness.ray_scan 0 3]), m. split; [exact E|]. split; [|split; [exact P|split; [exact Q|discriminate]]].
  assert (R : om_resolution m = 1); [|rewrite R; lra].
  unfold occ_get_msg, render in E. apply bind_ok in E. destruct E as (m1 & E & E1).
  assert (E2 := f_equal (fun r => match r with Ok (_, b) => b | Fault _ => m end) E1). cbv beta iota in E2. subst m1. clear E1.
  apply bind_ok in E. destruct E as (w & _ & E). apply bind_ok in E. destruct E as (h & _ & E). cbv zeta in E. apply bind_ok in E. destruct E as (ct & _ & E).
  apply (f_equal (fun r => match r with Ok b => om_resolution b | Fault _ => 1 end)) in E. cbv beta iota in E. rewrite <- E. reflexivity.
Qed.
