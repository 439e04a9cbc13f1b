(** C156: drawing the map in double arithmetic, and a node that never fails. *)

From Coq Require Import ZArith Reals List Bool Lia Lra Psatz.
From Flocq Require Import Core BinarySingleNaN.
From Verif Require Import Outcome Arith TypesModel ScanModel OccGridModel SpecGrid SpecOcc MatcherB64 OccProofs OccProofs2
  B64Tactics B64Lemmas CellB64 SpecMotion64 SpecPlace64 NearestB64 PropAngle64 PropPlace64 SpecOcc64 SpecCanvas64
  SpecMapper SpecMapper4 SpecSafe SpecMapSafe64 SpecAngle64 SpecOrdinary GraphModel MapperModel SafeInv MapperWitness2 PropMapper3 PropSafe PropOrdinary NearB64 OccB64 PropOcc64.
Import ListNotations.
Local Open Scope R_scope.

Section Canvas.
Context (lm : libm) (HT : accurate_trig lm) (res : b64) (r : R) (Fr : is_finite res = true) (Er : B2R res = r) (Ur : usual_cell r).
Let P : 0 < r := cell_pos r Ur.
Let H32 : usual_size (bpow radix2 32 * r) := HH r Ur.

Section Axis.
Context (lo hi : b64) (HA : axis_ok r lo hi) (HR : side_cells r lo hi <= bpow radix2 31 / 11).
Let D : R := (B2R hi - B2R lo) / r.
Lemma D_small : 0 <= D <= 195225776.
Proof.
  destruct HA as (_ & _ & L). unfold side_cells in HR. fold D in HR. change (bpow radix2 31) with 2147483648 in HR. split; [|lra].
  apply Rmult_le_pos; [lra|left; apply Rinv_0_lt_compat; exact P].
Qed.
Lemma bound_near (x : b64) : upto (bpow radix2 29 * r) x -> near (bpow radix2 32 * r) 0 (/ 8) x (B2R x).
Proof.
  intros (F & B). apply near_exact; [exact F|]. rewrite p32. change (bpow radix2 29) with 536870912 in B. eapply Rle_trans; [exact B|lra].
Qed.

Lemma canvas_dim : exists w, cast_unsigned (A := BA lm) 32 (Bdiv mode_NE (Bplus mode_NE (Bminus mode_NE hi lo) (Bmult mode_NE (b64_of 2 0) (Bmult mode_NE (b64_of 5 0) res))) res) = Ok w /\
  (9 <= w)%Z /\ D + 9 - 3 * tiny <= IZR w <= D + 10 + 3 * tiny.
Proof.
  destruct HA as (BL & BH & L). pose proof (bound_near hi BH) as NH. pose proof (bound_near lo BL) as NL.
  near_op near_sub (bpow radix2 32 * r) H32 NH NL DD.
  pose proof (pad2_near res r Fr Er Ur 0 0 ltac:(lia)) as NP. near_op near_add (bpow radix2 32 * r) H32 DD NP W. clear NH NL DD NP.
  pose proof D_small as DS.
  assert (EV : B2R hi - B2R lo + 10 * r = (D + 10) * r) by (unfold D; field; lra). rewrite EV in W.
  apply (near_weaken _ H32 _ 16 _ 3) in W; [|lra..].
  destruct (cell_of res r Er Ur _ _ _ W) as [Fq Eq].
  { rewrite Rabs_mult, (Rabs_pos_eq r), (Rabs_pos_eq (D + 10)) by lra. apply Rmult_le_compat_r; [lra|]. change (bpow radix2 31) with 2147483648. lra. }
  rewrite div_mult in Eq by exact P. set (q := Bdiv mode_NE _ res) in *.
  rewrite tiny_val in Eq |- *. pose proof (Rabs_le_inv _ _ Eq) as Eq'.
  destruct (trunc_range lm q Fq ltac:(lra)) as (i & TI & I3 & I4).
  exists i. unfold cast_unsigned. rewrite TI.
  assert (I9 : (9 <= i)%Z) by (apply Z.lt_succ_r, lt_IZR; unfold Z.succ; rewrite plus_IZR; lra).
  assert (i < 2 ^ 32)%Z by (apply lt_IZR; change (IZR (2 ^ 32)) with 4294967296; lra).
  destruct (Z.leb_spec 0 i); [|lia]. destruct (Z.ltb_spec i (2 ^ 32)); [|lia]. split; [reflexivity|]. split; [exact I9|lra].
Qed.

Lemma canvas_cell (x : b64) (v : R) (w : Z) : close (/ 4 * tiny * r) x v -> within r lo hi v -> D + 9 - 3 * tiny <= IZR w ->
  let ox := Bminus mode_NE lo (Bmult mode_NE (b64_of 5 0) res) in
  exists i, cast_int32 (A := BA lm) (Bdiv mode_NE (Bminus mode_NE x ox) res) = Ok i /\ (0 <= i < w)%Z /\ in_cell (B2R ox) r i v.
Proof.
  intros (Fx & Ex) B HW ox. pose proof tiny_val as TV. pose proof D_small as DS. destruct HA as (BL & BH & L).
  pose proof (bound_near lo BL) as NL.
  set (t := (v - B2R lo) / r). assert (Ev : v = t * r + B2R lo) by (unfold t; field; lra).
  assert (Eh : B2R hi = D * r + B2R lo) by (unfold D; field; lra).
  assert (TB : -3 <= t <= D + 3).
  { unfold within in B. rewrite Ev, Eh in B. split; apply (Rmult_le_reg_r r); try exact P; lra. }
  assert (NX : near (bpow radix2 32 * r) 2 1 x v).
  { split; [exact Fx|]. rewrite uH. split; [rewrite TV in Ex; lra|]. rewrite p32, Rmult_1_l.
    destruct BL as (_ & BL). apply Rabs_le_inv in BL. change (bpow radix2 29) with 536870912 in BL.
    assert (-3 * r <= t * r <= (D + 3) * r) by (split; apply Rmult_le_compat_r; lra). assert (D * r <= 195225776 * r) by (apply Rmult_le_compat_r; lra).
    rewrite Ev. apply Rabs_le. lra. }
  pose proof (pad_near res r Fr Er Ur 0 0 ltac:(lia)) as NP. near_op near_sub (bpow radix2 32 * r) H32 NL NP NO. fold ox in NO.
  near_op near_sub (bpow radix2 32 * r) H32 NX NO DD. destruct NO as (FO & EO & _). rewrite uH in EO.
  assert (EV : v - (B2R lo - 5 * r) = (t + 5) * r) by (rewrite Ev; ring). rewrite EV in DD.
  apply (near_weaken _ H32 _ 16 _ 3) in DD; [|lra..].
  destruct (cell_of res r Er Ur _ _ _ DD) as [Fq Eq].
  { rewrite Rabs_mult, (Rabs_pos_eq r) by lra. apply Rmult_le_compat_r; [lra|]. change (bpow radix2 31) with 2147483648. apply Rabs_le. lra. }
  rewrite div_mult in Eq by exact P. set (q := Bdiv mode_NE _ res) in *.
  rewrite TV in Eq, HW. pose proof (Rabs_le_inv _ _ Eq) as Eq'.
  destruct (trunc_range lm q Fq ltac:(lra)) as (i & TI & I3 & I4).
  assert (I2 : (i < w)%Z) by (apply lt_IZR; lra).
  assert (i < 2 ^ 31)%Z by (apply lt_IZR; change (IZR (2 ^ 31)) with 2147483648; lra).
  assert (I0 : (0 <= i)%Z) by (apply Z.lt_succ_r, lt_IZR; unfold Z.succ; rewrite plus_IZR; lra).
  exists i. unfold cast_int32. rewrite TI.
  destruct (Z.leb_spec (- 2 ^ 31) i); [|lia]. destruct (Z.ltb_spec i (2 ^ 31)); [|lia]. split; [reflexivity|]. split; [lia|].
  unfold in_cell. apply Rabs_le_inv in EO. rewrite Ev. split.
  - assert ((IZR i - / 2048) * r <= (t + 5) * r) by (apply Rmult_le_compat_r; lra). lra.
  - assert ((t + 5) * r <= (IZR i + 1 + / 2048) * r) by (apply Rmult_le_compat_r; lra). lra.
Qed.
End Axis.

Lemma side_ge (lo hi : b64) : axis_ok r lo hi -> 11 <= side_cells r lo hi.
Proof.
  intros (_ & _ & L). unfold side_cells. assert (0 <= (B2R hi - B2R lo) / r) by (apply Rmult_le_pos; [lra|left; apply Rinv_0_lt_compat; exact P]). lra.
Qed.

Lemma render_room (o : occ b64) (scans : list (scan b64)) : og_res o = res -> has_room o scans ->
  exists m, render (A := BA lm) o scans = Ok m /\ List.length (om_data m) = Z.to_nat (om_width m * om_height m) /\
    (forall p, In p (obstacles scans) -> drawn r m p) /\ (forall s, In s scans -> drawn r m (sensor_of s)).
Proof.
  intros ER (_ & _ & AX & AY & SZ & HS & HB & HO). unfold on_canvas in HB, HO. rewrite ER, Er in *.
  pose proof (side_ge _ _ AX) as GX. pose proof (side_ge _ _ AY) as GY.
  assert (RX : side_cells r (og_minx o) (og_maxx o) <= bpow radix2 31 / 11) by (change (bpow radix2 31) with 2147483648 in *; nra).
  assert (RY : side_cells r (og_miny o) (og_maxy o) <= bpow radix2 31 / 11) by (change (bpow radix2 31) with 2147483648 in *; nra).
  destruct (canvas_dim _ _ AX RX) as (w & EW & W9 & W1 & W2). destruct (canvas_dim _ _ AY RY) as (h & EH & H9 & H1 & H2).
  pose proof (fun x v C B => canvas_cell _ _ AX RX x v w C B W1) as CX. pose proof (fun x v C B => canvas_cell _ _ AY RY x v h C B H1) as CY.
  cbv zeta in CX, CY.
  set (ox := Bminus mode_NE (og_minx o) (Bmult mode_NE (b64_of 5 0) res)) in *.
  set (oy := Bminus mode_NE (og_miny o) (Bmult mode_NE (b64_of 5 0) res)) in *.
  assert (S31 : (w * h < 2 ^ 31)%Z).
  { apply lt_IZR. rewrite mult_IZR. change (IZR (2 ^ 31)) with (bpow radix2 31). unfold side_cells in *.
    apply IZR_le in W9, H9. rewrite tiny_val in *. change (bpow radix2 31) with 2147483648 in *. nra. }
  assert (PC : forall x y p, close (/ 4 * tiny * r) x (px p) -> close (/ 4 * tiny * r) y (py p) ->
    within r (og_minx o) (og_maxx o) (px p) -> within r (og_miny o) (og_maxy o) (py p) ->
    exists c, pos_cell (A := BA lm) ox oy res x y = Ok c /\ in_grid w h c /\ in_cell (B2R ox) r (fst c) (px p) /\ in_cell (B2R oy) r (snd c) (py p)).
  { intros x y p CLX CLY BPX BPY. destruct (CX x (px p) CLX BPX) as (i & E1 & I1 & Q1). destruct (CY y (py p) CLY BPY) as (j & E2 & I2 & Q2).
    exists (i, j). unfold pos_cell. cbn [nsub ndiv BA]. rewrite E1. cbn [bind]. rewrite E2. cbn [bind fst snd].
    split; [reflexivity|]. split; [split; cbn [fst snd]; lia|]. split; assumption. }
  assert (T0 : 0 <= / 4 * tiny * r) by (rewrite tiny_val; lra).
  assert (SE : forall s, In s scans -> exists c, pos_cell (A := BA lm) ox oy res (pox (s_pose s)) (poy (s_pose s)) = Ok c /\ in_grid w h c /\
     in_cell (B2R ox) r (fst c) (px (sensor_of s)) /\ in_cell (B2R oy) r (snd c) (py (sensor_of s))).
  { intros s Hs. destruct (HB s Hs) as [B1 B2]. rewrite Forall_forall in HS. destruct (HS s Hs) as (((F1 & _) & (F2 & _) & _) & _).
    apply PC; [| |exact B1|exact B2].
    - split; [exact F1|]. cbn [px sensor_of sensor real_scan s_pose real_pose pox]. rewrite Rminus_diag_eq, Rabs_R0 by reflexivity. exact T0.
    - split; [exact F2|]. cbn [py sensor_of sensor real_scan s_pose real_pose poy]. rewrite Rminus_diag_eq, Rabs_R0 by reflexivity. exact T0. }
  assert (OB : forall s q, In s scans -> In q (s_pts s) -> let p := move (real_pose (s_pose s)) (real_point q) in
     exists c, pos_cell (A := BA lm) ox oy res
       (Bplus mode_NE (Bminus mode_NE (Bmult mode_NE (px q) (lm_cos lm (poth (s_pose s)))) (Bmult mode_NE (py q) (lm_sin lm (poth (s_pose s))))) (pox (s_pose s)))
       (Bplus mode_NE (Bplus mode_NE (Bmult mode_NE (px q) (lm_sin lm (poth (s_pose s)))) (Bmult mode_NE (py q) (lm_cos lm (poth (s_pose s))))) (poy (s_pose s))) = Ok c /\
     in_grid w h c /\ in_cell (B2R ox) r (fst c) (px p) /\ in_cell (B2R oy) r (snd c) (py p)).
  { intros s q Hs Hq p.
    assert (Ip : In p (obstacles scans)).
    { unfold obstacles, worlds. apply in_flat_map. exists (real_scan s). split; [apply in_map; exact Hs|]. unfold world. cbn [s_pts s_pose real_scan].
      unfold p. apply in_map, in_map. exact Hq. }
    rewrite Forall_forall in HS. destruct (HS s Hs) as (HP & HQ). rewrite Forall_forall in HQ.
    destruct (ray_end64 lm _ (s_pose s) q HT (H29 r Ur) HP (HQ q Hq)) as [LX' LY']. cbn [px py] in LX', LY'. rewrite p49 in LX', LY'.
    destruct (move_seen (s_pose s) q) as [MX' MY']. fold p in MX', MY'. rewrite <- MX' in LX'. rewrite <- MY' in LY'.
    destruct (HO p Ip) as [B1 B2]. apply PC; assumption. }
  destruct (mapM_total (scan_rays (A := BA lm) ox oy res)
     (fun _ rays => Forall (fun ry => in_grid w h (fst ry) /\ in_grid w h (snd ry)) rays) scans) as (rays & M & F).
  { intros s Hs. unfold scan_rays. destruct (SE s Hs) as (st & E & G & _). rewrite E. cbn [bind].
    match goal with |- exists y, mapM ?f ?l = _ /\ _ =>
      destruct (mapM_total f (fun _ ry => in_grid w h (fst ry) /\ in_grid w h (snd ry)) l) as (rays & M & F) end.
    - intros q Hq. destruct (OB s q Hs Hq) as (c & E2 & G2 & _). cbn [nadd nsub nmul ncos nsin BA]. rewrite E2. cbn [bind].
      eexists. split; [reflexivity|]. cbn [fst snd]. split; assumption.
    - exists rays. split; [exact M|]. clear -F. induction F; constructor; auto. }
  assert (F' : Forall (fun ry => in_grid w h (fst ry) /\ in_grid w h (snd ry)) (List.concat rays)).
  { clear -F. induction F; cbn [concat]; [constructor|]. apply Forall_app. auto. }
  assert (WR : wrap32 (w * h) = (w * h)%Z) by (unfold wrap32; apply Z.mod_small; nia).
  destruct (rays_safe w h (List.concat rays) (repeat 0%Z (Z.to_nat (w * h))) (repeat 0%Z (Z.to_nat (w * h))) ltac:(lia) ltac:(lia) S31)
    as (ct & C); [apply repeat_length|apply repeat_length|exact F'|].
  unfold render. cbn [nadd nsub nmul ndiv nofZ BA]. rewrite ER, EW. cbn [bind]. rewrite EH. cbn [bind]. rewrite WR. fold ox oy.
  rewrite (proj2 (flatten_inv (scan_rays (A := BA lm) ox oy res) (render_ray w)
     scans (repeat 0%Z (Z.to_nat (w * h)), repeat 0%Z (Z.to_nat (w * h))) ct) (ex_intro _ rays (conj M C))).
  cbn [bind]. eexists. split; [reflexivity|]. cbn [om_width om_height om_ox om_oy om_data].
  split; [|split].
  - apply render_rays_inv in C. destruct C as (ms & _ & LA & LB & _). cbn [fst snd] in LA, LB.
    rewrite map_length, combine_length, LA, LB, !repeat_length. apply Nat.min_id.
  - intros p Hp. unfold obstacles, worlds in Hp. apply in_flat_map in Hp. destruct Hp as (s' & Hs & Hp). apply in_map_iff in Hs. destruct Hs as (s & <- & Hs).
    unfold world in Hp. cbn [s_pts s_pose real_scan] in Hp. rewrite map_map in Hp. apply in_map_iff in Hp. destruct Hp as (q & <- & Hq).
    destruct (OB s q Hs Hq) as (c & _ & (G1 & G2) & Q1 & Q2). exists (fst c), (snd c). cbn [om_width om_height om_ox om_oy]. repeat split; try (apply G1); try (apply G2); apply Q1 || apply Q2.
  - intros s Hs. destruct (SE s Hs) as (c & _ & (G1 & G2) & Q1 & Q2). exists (fst c), (snd c). split; [exact G1|]. split; [exact G2|]. split; assumption.
Qed.
End Canvas.

(** Drawing scans for which the updated bounds have room never fails; data and size
    agree; every point and every sensor lies in a cell of the grid. *)
Theorem C156_drawing (lm : libm) (o : occ b64) (scans : list (scan b64)) : accurate_trig lm -> has_room (refresh (A := BA lm) o scans) scans ->
  exists m, occ_get_msg (A := BA lm) o scans = Ok (refresh (A := BA lm) o scans, m) /\
    List.length (om_data m) = Z.to_nat (om_width m * om_height m) /\
    (forall p, In p (obstacles scans) -> drawn (B2R (og_res o)) m p) /\ (forall s, In s scans -> drawn (B2R (og_res o)) m (sensor_of s)).
Proof.
  intros HT HR. assert (ER : og_res (refresh (A := BA lm) o scans) = og_res o).
  { unfold refresh. destruct (Nat.eqb _ _); [reflexivity|]. unfold update_bounds, snap. cbn [og_res]. apply (bound_fields (A := BA lm)). }
  pose proof HR as (F & U & _). rewrite ER in F, U.
  destruct (render_room lm HT (og_res o) _ F eq_refl U _ scans ER HR) as (m & M & R). exists m. split; [|exact R].
  unfold occ_get_msg. rewrite M. reflexivity.
Qed.
Print Assumptions C156_drawing.

(** No step of a node with ordinary numbers fails, drawings included. *)
Theorem C156_no_failure (lm : libm) (M N P : R) (cf : config b64) :
  accurate_trig lm -> exact_fmod lm -> 1 <= M <= bpow radix2 26 -> 1 <= N -> 0 <= P -> P + 2 * N <= M -> suitable lm M cf ->
  search_in_range (en_search cf) -> chained_start (A := BA lm) cf -> good_start (A := BA lm) cf ->
  forall m l f, reach_if (A := BA lm) cf (ordinary lm M N P cf) m -> ordinary lm M N P cf m l ->
    (drawing m l -> forall scans, graph_scans (mp_sh m) = Ok scans -> has_room (refresh (A := BA lm) (pb_grid (mp_pub m)) scans) scans) ->
    step (A := BA lm) cf l m <> Some (Fault f).
Proof.
  intros Tr Fm M1 N1 P1 PN Su Sr Ch Go m l f R O D.
  assert (Dec : drawing m l \/ ~ drawing m l).
  { unfold drawing. destruct l; try (right; intros [E _]; discriminate E). destruct (pb_pc (mp_pub m)); try (right; intros [_ E]; discriminate E). left. split; reflexivity. }
  destruct Dec as [Y|Y]; [|exact (proj2 (C155_no_failure lm M N P cf Tr Fm M1 N1 P1 PN Su Sr Ch Go) m l f R O Y)].
  specialize (D Y). destruct Y as [-> Pc]. cbn [step]. unfold pub_step. rewrite Pc. cbn [option_map].
  destruct (ordinary_reach lm M N P cf Tr Fm M1 N1 P1 PN Su Sr Go m R) as [Rc _].
  assert (G : exists scans, graph_scans (mp_sh m) = Ok scans) . 
  { pose proof (graph_scans_num cf (mp_sh m) (proj1 (al_id cf m (all_reach cf (sane_cf lm M cf Su) Sr Go (fresh_cf lm M cf Su) (beams_in_b64 lm) m Rc)))) as Q. pose proof (quiet_graph_scans (mp_sh m)) as Q'.
    destruct (graph_scans (mp_sh m)) as [scans|g]; [exists scans; reflexivity|]. exfalso. exact (Q' g eq_refl (Q g eq_refl)). }
  destruct G as (scans & Gs). rewrite Gs. cbn [bind]. destruct (C156_drawing lm (pb_grid (mp_pub m)) scans Tr (D scans Gs)) as (msg & E & _).
  rewrite E. cbn [bind]. discriminate.
Qed.
Print Assumptions C156_no_failure.

(** ** Witness: the run of C155, then the publisher gets to drawing the map.  All
    scans were taken within 1 of the origin; the cells have side 1. *)
Definition draw_run : list (label b64) := safe_run ++ repeat Pub 8.
Definition unit_b (x : b64) : bool := is_finite x && Bleb (Babs x) (z64 1).
Definition room_b (o : occ b64) (scans : list (scan b64)) : bool :=
  beq (og_res o) (z64 1) && beq (og_minx o) (z64 (-1)) && beq (og_maxx o) (z64 1) && beq (og_miny o) (z64 (-1)) && beq (og_maxy o) (z64 1) &&
  forallb (fun s => unit_b (pox (s_pose s)) && unit_b (poy (s_pose s)) && is_finite (poth (s_pose s)) && forallb (fun q => unit_b (px q) && unit_b (py q)) (s_pts s)) scans.

Lemma unit_upto x : unit_b x = true -> upto 1 x.
Proof.
  intro H. apply andb_prop in H. destruct H as [F H]. split; [exact F|].
  destruct (b64_ofZ 1 ltac:(lia)) as [V F1]. rewrite Bleb_correct in H; [|rewrite is_finite_Babs; exact F|exact F1].
  destruct (Rle_bool_spec (B2R (Babs x)) (B2R (z64 1))) as [L|_]; [|discriminate H]. rewrite B2R_Babs in L. unfold z64 in L. rewrite V in L. exact L.
Qed.
Lemma beq_value (x : b64) (z : Z) : (z = 1 \/ z = -1)%Z -> beq x (z64 z) = true -> is_finite x = true /\ B2R x = IZR z.
Proof.
  intros Z1 H. destruct (b64_ofZ z ltac:(lia)) as [V F].
  assert (Fx : is_finite x = true). { destruct x as [s|s| |s m e h]; try reflexivity; destruct Z1 as [-> | ->]; try destruct s; vm_compute in H; discriminate H. }
  split; [exact Fx|]. unfold beq in H. rewrite Beqb_correct in H by assumption. unfold z64 in H. rewrite V in H.
  destruct (Req_bool_spec (B2R x) (IZR z)) as [E|_]; [exact E|discriminate H].
Qed.
Lemma upto_more (a b : R) (x : b64) : a <= b -> upto a x -> upto b x.
Proof. intros L [F H]. split; [exact F|lra]. Qed.

Lemma room_sound o scans : room_b o scans = true -> has_room o scans.
Proof.
  intro H. unfold room_b in H. do 5 (apply andb_prop in H; let J := fresh "J" in destruct H as [H J]).
  apply beq_value in H, J0, J1, J2, J3; try tauto. destruct H as [Fr Er], J3 as [F0 E0], J2 as [F1 E1], J1 as [F2 E2], J0 as [F3 E3].
  assert (B29 : bpow radix2 29 = 536870912) by reflexivity.
  assert (S : forall s, In s scans -> pose_upto 1 (s_pose s) /\ Forall (point_upto 1) (s_pts s)).
  { intros s I. rewrite forallb_forall in J. specialize (J s I). cbv beta in J. do 3 (apply andb_prop in J; let K := fresh "K" in destruct J as [J K]).
    split; [split; [apply unit_upto; exact J|split; [apply unit_upto; exact K1|exact K0]]|]. apply Forall_forall. intros q Iq. rewrite forallb_forall in K. specialize (K q Iq).
    apply andb_prop in K. split; apply unit_upto; apply K. }
  unfold has_room. cbv zeta. rewrite Er, B29. split; [exact Fr|]. split.
  { split; [change 1 with (bpow radix2 0); apply bpow_le; lia|change 1 with (bpow radix2 0); apply bpow_le; lia]. }
  split; [split; [split; [exact F0|rewrite E0; apply Rabs_le; lra]|split; [split; [exact F1|rewrite E1; apply Rabs_le; lra]|rewrite E0, E1; lra]]|].
  split; [split; [split; [exact F2|rewrite E2; apply Rabs_le; lra]|split; [split; [exact F3|rewrite E3; apply Rabs_le; lra]|rewrite E2, E3; lra]]|].
  split; [unfold side_cells; rewrite E0, E1, E2, E3; change (bpow radix2 31) with 2147483648; lra|].
  unfold on_canvas, within. rewrite Er, E0, E1, E2, E3. split; [|split].
  - apply Forall_forall. intros s I. destruct (S s I) as ((S1 & S2 & S3) & S4).
    split; [split; [revert S1|split; [revert S2|exact S3]]; apply upto_more; lra|]. apply Forall_forall. intros q Iq. rewrite Forall_forall in S4. destruct (S4 q Iq) as [Q1 Q2].
    split; [revert Q1|revert Q2]; apply upto_more; lra.
  - intros s I. destruct (S s I) as (((_ & S1) & (_ & S2) & _) & _). unfold sensor_of, sensor. cbn [px py real_scan s_pose real_pose pox poy].
    apply Rabs_le_inv in S1. apply Rabs_le_inv in S2. lra.
  - intros p Hp. unfold obstacles, worlds in Hp. apply in_flat_map in Hp. destruct Hp as (s' & Hs & Hp). apply in_map_iff in Hs. destruct Hs as (s & <- & Hs).
    unfold world in Hp. cbn [s_pts s_pose real_scan] in Hp. rewrite map_map in Hp. apply in_map_iff in Hp. destruct Hp as (q & <- & Hq).
    destruct (S s Hs) as (((_ & S1) & (_ & S2) & _) & S4). rewrite Forall_forall in S4. destruct (S4 q Hq) as [[_ Q1] [_ Q2]].
    unfold move. cbn [px py pox poy poth real_pose real_point].
    pose proof (COS_bound (B2R (poth (s_pose s)))). pose proof (SIN_bound (B2R (poth (s_pose s)))).
    apply Rabs_le_inv in S1. apply Rabs_le_inv in S2. apply Rabs_le_inv in Q1. apply Rabs_le_inv in Q2.
    set (c := cos _) in *. set (n := sin _) in *. set (x := B2R (px q)) in *. set (y := B2R (py q)) in *.
    assert (-1 <= c * x <= 1) by nra. assert (-1 <= c * y <= 1) by nra. assert (-1 <= n * x <= 1) by nra. assert (-1 <= n * y <= 1) by nra. lra.
Qed.

Definition draw_end (lm : libm) (m : mapper b64) : bool :=
  ordinary_b (easy lm) (cf11 lm) m Pub && optimized m && match pb_pc (mp_pub m) with PGrid => true | _ => false end &&
  match graph_scans (mp_sh m) with Ok scans => room_b (refresh (A := BA (easy lm)) (pb_grid (mp_pub m)) scans) scans | Fault _ => false end.
Lemma draw_run_checked (lm : libm) : run_ok (easy lm) (cf11 lm) (ordinary_b (easy lm) (cf11 lm)) draw_run = true.
Proof. vm_compute. reflexivity. Qed.
Lemma draw_run_ends (lm : libm) : exists m, run (A := BA (easy lm)) (cf11 lm) draw_run = Ok m /\ draw_end lm m = true.
Proof. apply ends64_in. vm_compute. reflexivity. Qed.

Example C156_nonvacuous (lm : libm) : exists cf m,
  accurate_trig (tidy lm) /\ exact_fmod (tidy lm) /\ suitable (tidy lm) 1000 cf /\ search_in_range (en_search cf) /\
  chained_start (A := BA (tidy lm)) cf /\ good_start (A := BA (tidy lm)) cf /\
  reach_if (A := BA (tidy lm)) cf (ordinary (tidy lm) 1000 1 998 cf) m /\ (exists n, In (ObOptimize n) (sh_trace (mp_sh m))) /\
  ordinary (tidy lm) 1000 1 998 cf m Pub /\ drawing m Pub /\
  forall scans, graph_scans (mp_sh m) = Ok scans -> has_room (refresh (A := BA (tidy lm)) (pb_grid (mp_pub m)) scans) scans.
Proof.
  unfold tidy. set (lm' := with_nearest (with_fmod lm)). destruct (draw_run_ends lm') as (m & E & H). exists (cf11 lm'), m.
  split; [apply tidy_trig|]. split; [apply tidy_fmod|]. split.
  { split; [cbn; lia|]. split; [exact I|]. split; [intro r; split; reflexivity|]. intros r _ _. split; exact (matcher64_suits (easy lm')). }
  split; [exact search64_in_range|]. split; [apply cf11_chained|]. split; [apply cf11_good|].
  split; [exact (run_reach (easy lm') (cf11 lm') _ _ draw_run m (ordinary_sound (easy lm') 1 998 (cf11 lm')) (draw_run_checked lm') E)|].
  unfold draw_end in H. apply andb_prop in H. destruct H as [H H4]. apply andb_prop in H. destruct H as [H H3]. apply andb_prop in H. destruct H as [H1 H2]. split.
  - apply existsb_exists in H2. destruct H2 as (o & I & O). destruct o; try discriminate O. exists n. exact I.
  - split; [exact (ordinary_sound (easy lm') 1 998 (cf11 lm') m _ H1)|]. split.
    + split; [reflexivity|]. destruct (pb_pc (mp_pub m)); try discriminate H3. reflexivity.
    + intros scans Gs. rewrite Gs in H4. apply room_sound. exact H4.
Qed.
