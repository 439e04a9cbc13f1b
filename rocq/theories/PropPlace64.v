(** Scan points in the map frame, in double arithmetic: every part of the
    program that moves them agrees with the exact rigid motion. *)

From Coq Require Import ZArith Reals List Lia Lra.
From Flocq Require Import Core BinarySingleNaN.
From Verif Require Import Outcome Arith TypesModel ScanModel CellModel NdtModel MatcherModel OccGridModel
  B64Tactics B64Lemmas CellB64 NdtProofs OccProofs SpecPlace64 NearB64 NearestB64.
Import ListNotations.
Local Open Scope R_scope.

Lemma u16 : 16 * u64 = bpow radix2 (-49).
Proof. unfold u64. change 16 with (bpow radix2 4). rewrite <- bpow_plus. reflexivity. Qed.

Lemma close_near (M k b : R) (x : b64) (v : R) : usual_size M -> k <= 16 -> near M k b x v -> close (bpow radix2 (-49) * M) x v.
Proof.
  intros HM K N. apply near_close in N. destruct N as [F E]. split; [exact F|]. eapply Rle_trans; [exact E|].
  rewrite <- u16, Rmult_assoc. apply Rmult_le_compat_r; [|exact K]. left. apply uM_pos. exact HM.
Qed.

(** The rotated coordinates, product order as in "x * cos - y * sin". *)
Lemma rot_x (M : R) (x y c s : b64) (C S : R) : usual_size M -> upto M x -> upto M y -> unit_near c C -> unit_near s S ->
  near M (805 / 100) 2 (Bminus mode_NE (Bmult mode_NE x c) (Bmult mode_NE y s)) (B2R x * C - B2R y * S).
Proof.
  intros HM X Y HC HS.
  pose proof (near_mul_r M HM 0 1 c x C _ ltac:(lra) ltac:(lra) HC (near_upto M x X)) as A.
  pose proof (near_mul_r M HM 0 1 s y S _ ltac:(lra) ltac:(lra) HS (near_upto M y Y)) as B.
  eapply near_weaken; [exact HM| | |eapply (near_sub M HM); [| | | |exact A|exact B]]; lra.
Qed.
Lemma rot_y (M : R) (x y c s : b64) (C S : R) : usual_size M -> upto M x -> upto M y -> unit_near c C -> unit_near s S ->
  near M (805 / 100) 2 (Bplus mode_NE (Bmult mode_NE x s) (Bmult mode_NE y c)) (B2R x * S + B2R y * C).
Proof.
  intros HM X Y HC HS.
  pose proof (near_mul_r M HM 0 1 s x S _ ltac:(lra) ltac:(lra) HS (near_upto M x X)) as A.
  pose proof (near_mul_r M HM 0 1 c y C _ ltac:(lra) ltac:(lra) HC (near_upto M y Y)) as B.
  eapply near_weaken; [exact HM| | |eapply (near_add M HM); [| | | |exact A|exact B]]; lra.
Qed.

Lemma place64 (lm : libm) (M : R) (p : pose b64) (q : point b64) : accurate_trig lm -> usual_size M ->
  pose_upto M p -> point_upto M q -> lands (bpow radix2 (-49) * M) p q (place (A := BA lm) p q).
Proof.
  intros T HM (PX & PY & PT) (QX & QY).
  pose proof (cos_unit lm _ T PT) as HC. pose proof (sin_unit lm _ T PT) as HS.
  pose proof (rot_x M _ _ _ _ _ _ HM QX QY HC HS) as A. pose proof (rot_y M _ _ _ _ _ _ HM QX QY HC HS) as B.
  pose proof (near_upto M _ PX) as NX. pose proof (near_upto M _ PY) as NY. split.
  - near_op near_add M HM NX A E.
    apply close_near in E; [|exact HM|lra]. unfold seen_x. rewrite (Rmult_comm (cos _)), (Rmult_comm (sin _)). exact E.
  - near_op near_add M HM NY B E.
    apply close_near in E; [|exact HM|lra]. unfold seen_y. rewrite (Rmult_comm (cos _)), (Rmult_comm (sin _)). exact E.
Qed.

Lemma near_zero (M : R) (z : b64) : is_finite z = true -> B2R z = 0 -> near M 0 0 z 0.
Proof. intros F Z. split; [exact F|]. rewrite Z, Rminus_0_r, Rabs_R0. lra. Qed.

Lemma iso_apply64 (lm : libm) (M : R) (p : pose b64) (q : point b64) : accurate_trig lm -> usual_size M ->
  pose_upto M p -> point_upto M q -> lands (bpow radix2 (-49) * M) p q (iso_apply (A := BA lm) p q).
Proof.
  intros T HM (PX & PY & PT) (QX & QY).
  pose proof (cos_unit lm _ T PT) as HC. pose proof (sin_unit lm _ T PT) as HS.
  set (z := nzero (A := BA lm)). assert (FZ : is_finite z = true) by reflexivity. assert (VZ : B2R z = 0) by reflexivity.
  pose proof (unit_zero_minus z _ _ FZ VZ HS) as HM'. pose proof (unit_zero_plus z _ _ FZ VZ HS) as HP.
  set (z1 := nmul (Arith := BA lm) z (none_ (A := BA lm))).
  assert (Z1 : near M 0 0 z1 0) by (apply near_zero; reflexivity).
  pose proof (near_upto M _ PX) as NX. pose proof (near_upto M _ PY) as NY.
  pose proof (near_upto M _ QX) as NQ. pose proof (near_upto M _ QY) as NR.
  split.
  - pose proof (near_mul M HM 0 1 _ _ _ _ ltac:(lra) ltac:(lra) HC NQ) as A.
    pose proof (near_mul M HM 0 1 _ _ _ _ ltac:(lra) ltac:(lra) HM' NR) as B.
    near_op near_add M HM A B E.
    near_op near_add M HM E Z1 E2.
    near_op near_add M HM E2 NX E3.
    apply close_near in E3; [|exact HM|lra]. unfold seen_x.
    replace (B2R (pox p) + (cos (B2R (poth p)) * B2R (px q) - sin (B2R (poth p)) * B2R (py q)))
      with (cos (B2R (poth p)) * B2R (px q) + - sin (B2R (poth p)) * B2R (py q) + 0 + B2R (pox p)) by ring.
    exact E3.
  - pose proof (near_mul M HM 0 1 _ _ _ _ ltac:(lra) ltac:(lra) HP NQ) as A.
    pose proof (near_mul M HM 0 1 _ _ _ _ ltac:(lra) ltac:(lra) HC NR) as B.
    near_op near_add M HM A B E.
    near_op near_add M HM E Z1 E2.
    near_op near_add M HM E2 NY E3.
    apply close_near in E3; [|exact HM|lra]. unfold seen_y.
    replace (B2R (poy p) + (sin (B2R (poth p)) * B2R (px q) + cos (B2R (poth p)) * B2R (py q)))
      with (sin (B2R (poth p)) * B2R (px q) + cos (B2R (poth p)) * B2R (py q) + 0 + B2R (poy p)) by ring.
    exact E3.
Qed.

(** The expressions of OccupancyGrid::getMsg: translation last. *)
Lemma ray_end64 (lm : libm) (M : R) (p : pose b64) (q : point b64) : accurate_trig lm -> usual_size M ->
  pose_upto M p -> point_upto M q ->
  let c := lm_cos lm (poth p) in let s := lm_sin lm (poth p) in
  lands (bpow radix2 (-49) * M) p q
    (mkPoint (Bplus mode_NE (Bminus mode_NE (Bmult mode_NE (px q) c) (Bmult mode_NE (py q) s)) (pox p))
             (Bplus mode_NE (Bplus mode_NE (Bmult mode_NE (px q) s) (Bmult mode_NE (py q) c)) (poy p))).
Proof.
  intros T HM (PX & PY & PT) (QX & QY) c s.
  pose proof (cos_unit lm _ T PT) as HC. pose proof (sin_unit lm _ T PT) as HS.
  pose proof (rot_x M _ _ _ _ _ _ HM QX QY HC HS) as A. pose proof (rot_y M _ _ _ _ _ _ HM QX QY HC HS) as B.
  pose proof (near_upto M _ PX) as NX. pose proof (near_upto M _ PY) as NY. split.
  - near_op near_add M HM A NX E.
    apply close_near in E; [|exact HM|lra]. unfold seen_x. rewrite Rplus_comm, (Rmult_comm (cos _)), (Rmult_comm (sin _)). exact E.
  - near_op near_add M HM B NY E.
    apply close_near in E; [|exact HM|lra]. unfold seen_y. rewrite Rplus_comm, (Rmult_comm (cos _)), (Rmult_comm (sin _)). exact E.
Qed.

Lemma Forall2_map_r {X Y : Type} (P : X -> Prop) (Q : X -> Y -> Prop) (f : X -> Y) (l : list X) :
  (forall x, P x -> Q x (f x)) -> Forall P l -> Forall2 Q l (map f l).
Proof. intros H F. induction F; constructor; auto. Qed.

(** What NDT::addScan adds to the cells. *)
Theorem C130_add_scan (lm : libm) (M : R) (g : ndt b64) (s : scan b64) : accurate_trig lm -> usual_size M ->
  pose_upto M (s_pose s) -> Forall (point_upto M) (s_pts s) ->
  exists pts : list (point b64), Forall2 (lands (bpow radix2 (-49) * M) (s_pose s)) (s_pts s) pts /\
    ndt_add_scan (A := BA lm) g s = foldM (ndt_add_point (A := BA lm)) g pts.
Proof.
  intros T HM P Q. exists (map (place (A := BA lm) (s_pose s)) (s_pts s)). split; [|reflexivity].
  eapply Forall2_map_r; [|exact Q]. intros q Hq. apply place64; assumption.
Qed.

Lemma foldM_map {X Y Z : Type} (f : Z -> Y -> outcome Z) (h : X -> Y) (l : list X) (a : Z) :
  foldM f a (map h l) = foldM (fun a x => f a (h x)) a l.
Proof. revert a. induction l as [|x l IH]; intros a; cbn; [reflexivity|]. destruct (f a (h x)); cbn; [apply IH|reflexivity]. Qed.

(** What NDT::likelihood scores. *)
Theorem C130_likelihood (lm : libm) (M : R) (g : ndt b64) (s : scan b64) : accurate_trig lm -> usual_size M ->
  pose_upto M (s_pose s) -> Forall (point_upto M) (s_pts s) ->
  exists pts : list (point b64), Forall2 (lands (bpow radix2 (-49) * M) (s_pose s)) (s_pts s) pts /\
    ndt_likelihood_scan (A := BA lm) g s = ndt_likelihood_points (A := BA lm) g pts.
Proof.
  intros T HM P Q. exists (map (iso_apply (A := BA lm) (s_pose s)) (s_pts s)). split.
  - eapply Forall2_map_r; [|exact Q]. intros q Hq. apply iso_apply64; assumption.
  - unfold ndt_likelihood_scan, ndt_likelihood_points. rewrite foldM_map. reflexivity.
Qed.

(** What the occupancy grid includes in its bounds. *)
Theorem C130_bounds (lm : libm) (M : R) (o : occ b64) (s : scan b64) : accurate_trig lm -> usual_size M ->
  pose_upto M (s_pose s) -> Forall (point_upto M) (s_pts s) ->
  exists pts : list (point b64), Forall2 (lands (bpow radix2 (-49) * M) (s_pose s)) (s_pts s) pts /\
    bound_scan (A := BA lm) o s = fold_left (bound_point (A := BA lm)) pts o.
Proof.
  intros T HM P Q. exists (map (place (A := BA lm) (s_pose s)) (s_pts s)). split.
  - eapply Forall2_map_r; [|exact Q]. intros q Hq. apply place64; assumption.
  - unfold bound_scan. generalize (s_pts s). intros l. clear Q. revert o. induction l as [|q l IH]; intros o; cbn; [reflexivity|]. apply IH.
Qed.

(** Where the rays of the occupancy grid start and end. *)
Theorem C130_rays (lm : libm) (M : R) (ox oy res : b64) (s : scan b64) (rays : list (gcell * gcell)) :
  accurate_trig lm -> usual_size M -> pose_upto M (s_pose s) -> Forall (point_upto M) (s_pts s) ->
  scan_rays (A := BA lm) ox oy res s = Ok rays ->
  Forall2 (fun q r => exists q' : point b64, lands (bpow radix2 (-49) * M) (s_pose s) q q' /\
      pos_cell (A := BA lm) ox oy res (pox (s_pose s)) (poy (s_pose s)) = Ok (fst r) /\
      pos_cell (A := BA lm) ox oy res (px q') (py q') = Ok (snd r)) (s_pts s) rays.
Proof.
  intros T HM P Q E. unfold scan_rays in E. apply bind_ok in E. destruct E as (st & Es & E).
  apply mapM_Forall2 in E. induction E as [|q r qs rs Eq E IH]; [constructor|].
  inversion Q as [|? ? Hq Q']; subst. constructor; [|apply IH; exact Q'].
  apply bind_ok in Eq. destruct Eq as (e & Ee & Er). injection Er as <-.
  eexists. split; [apply (ray_end64 lm M (s_pose s) q T HM P Hq)|]. split; [exact Es|exact Ee].
Qed.

(** The points of one candidate of the correlative search. *)
Theorem C130_search (lm : libm) (M : R) (p : pose b64) (dx dy dth : b64) (bp : list (point b64)) :
  accurate_trig lm -> usual_size M -> pose_upto M p -> Forall (point_upto M) bp -> upto M dx -> upto M dy ->
  is_finite dth = true -> Rabs (B2R (poth p) + B2R dth) <= bpow radix2 400 ->
  Forall2 (shifted (bpow radix2 (-49) * M * (1 + Rabs (B2R (poth p) + B2R dth))) p dx dy dth) bp
    (inner_points (A := BA lm) dx dy (outer_points (A := BA lm) p dth bp)).
Proof.
  intros T HM (PX & PY & PT) Q DX DY FD B. unfold inner_points, outer_points. rewrite map_map.
  eapply Forall2_map_r; [|exact Q]. intros q (QX & QY). cbv beta. cbn [px py].
  set (h := nadd (Arith := BA lm) (poth p) dth).
  destruct (b64_add_ok (poth p) dth PT FD) as [VH FH].
  { eapply Rle_trans; [exact B|apply bpow_le; lia]. }
  change (Bplus mode_NE (poth p) dth) with h in VH, FH.
  assert (EH : Rabs (B2R h - (B2R (poth p) + B2R dth)) <= u64 * Rabs (B2R (poth p) + B2R dth) + eta64) by (rewrite VH; apply rnd_err).
  set (th := B2R (poth p) + B2R dth) in *.
  pose proof (cos_unit lm h T FH) as HC. pose proof (sin_unit lm h T FH) as HS.
  pose proof (rot_x M _ _ _ _ _ _ HM QX QY HC HS) as A. pose proof (rot_y M _ _ _ _ _ _ HM QX QY HC HS) as D.
  pose proof (near_upto M _ PX) as NX. pose proof (near_upto M _ PY) as NY.
  pose proof (near_upto M _ DX) as NDX. pose proof (near_upto M _ DY) as NDY.
  near_op near_add M HM A NX A2.
  near_op near_add M HM D NY D2.
  near_op near_add M HM A2 NDX A3.
  near_op near_add M HM D2 NDY D3.
  clear A D A2 D2. destruct A3 as (FA & EA & _). destruct D3 as (FD3 & ED & _).
  pose proof (cos_lip (B2R h) th) as LC. pose proof (sin_lip (B2R h) th) as LS.
  set (e := u64 * Rabs th + eta64) in *.
  assert (E0 : 0 <= e) by (pose proof (Rabs_pos (B2R h - th)); lra).
  pose proof (uM_pos M HM) as U. pose proof (M_pos M HM) as MP. pose proof (eta_M M HM) as HE.
  assert (PR : forall x y : R, Rabs x <= M -> Rabs y <= e -> Rabs (x * y) <= M * e).
  { intros x y Hx Hy. rewrite Rabs_mult. apply Rmult_le_compat; [apply Rabs_pos|apply Rabs_pos|exact Hx|exact Hy]. }
  destruct QX as [_ QX]. destruct QY as [_ QY].
  assert (H1 : Rabs (cos (B2R h) - cos th) <= e) by lra. assert (H2 : Rabs (sin (B2R h) - sin th) <= e) by lra.
  assert (TOT : 15.1 * (u64 * M) + (M * e + M * e) <= bpow radix2 (-49) * M * (1 + Rabs th)).
  { rewrite <- u16. unfold e. pose proof (Rabs_pos th) as AT.
    assert (M * eta64 <= M * (u64 * / 100)). { apply Rmult_le_compat_l; [lra|]. apply Rle_trans with (u64 * 1 * / 1000); [apply eta_scale; change 1 with (bpow radix2 0); apply bpow_le; lia|pose proof u64_pos; lra]. }
    assert (0 <= u64 * M * Rabs th) by (apply Rmult_le_pos; lra).
    replace (M * (u64 * Rabs th + eta64)) with (u64 * M * Rabs th + M * eta64) by ring. lra. }
  assert (TR : forall a b c e1 e2 e3 E : R, Rabs a <= e1 -> Rabs b <= e2 -> Rabs c <= e3 -> e1 + (e2 + e3) <= E -> Rabs (a + (b + c)) <= E).
  { intros. eapply Rle_trans; [apply Rabs_triang|]. pose proof (Rabs_triang b c). lra. }
  unfold shifted. cbv zeta. fold th. cbn [px py].
  split; (split; [first [exact FA|exact FD3]|]).
  - match goal with |- Rabs (?x - _) <= _ => replace (x - (B2R (pox p) + B2R dx + (cos th * B2R (px q) - sin th * B2R (py q))))
      with ((x - (B2R (px q) * cos (B2R h) - B2R (py q) * sin (B2R h) + B2R (pox p) + B2R dx)) +
            (B2R (px q) * (cos (B2R h) - cos th) + (- B2R (py q)) * (sin (B2R h) - sin th))) by ring end.
    eapply TR; [exact EA|apply PR; [exact QX|exact H1]|apply PR; [rewrite Rabs_Ropp; exact QY|exact H2]|]. eapply Rle_trans; [|exact TOT]. apply Rplus_le_compat_r. apply Rmult_le_compat_r; lra.
  - match goal with |- Rabs (?x - _) <= _ => replace (x - (B2R (poy p) + B2R dy + (sin th * B2R (px q) + cos th * B2R (py q))))
      with ((x - (B2R (px q) * sin (B2R h) + B2R (py q) * cos (B2R h) + B2R (poy p) + B2R dy)) +
            (B2R (px q) * (sin (B2R h) - sin th) + B2R (py q) * (cos (B2R h) - cos th))) by ring end.
    eapply TR; [exact ED|apply PR; [exact QX|exact H2]|apply PR; [exact QY|exact H1]|]. eapply Rle_trans; [|exact TOT]. apply Rplus_le_compat_r. apply Rmult_le_compat_r; lra.
Qed.

(** A robot at (3, 4) with heading 1, seeing a point 2 m ahead; M = 8. *)
Definition place_pose : pose b64 := mkPose (b64_of 3 0) (b64_of 4 0) (b64_of 1 0).
Definition place_point : point b64 := mkPoint (b64_of 2 0) (b64_of 0 0).
Definition place_scan : scan b64 := mkScan 0 true place_pose place_pose [place_point].

Lemma b64_of_small (m : Z) : (Z.abs m <= 8)%Z -> upto 8 (b64_of m 0).
Proof.
  intros H. destruct (b64_ofZ m ltac:(lia)) as [V F]. split; [exact F|]. rewrite V, <- abs_IZR. apply IZR_le. exact H.
Qed.
Lemma size8 : usual_size 8.
Proof. split; [apply Rle_trans with (bpow radix2 3); [apply bpow_le; lia|cbn; lra]|apply Rle_trans with (bpow radix2 3); [cbn; lra|apply bpow_le; lia]]. Qed.

Example C130_nonvacuous (lm : libm) : exists pts, accurate_trig (with_nearest lm) /\ usual_size 8 /\
  pose_upto 8 (s_pose place_scan) /\ Forall (point_upto 8) (s_pts place_scan) /\
  Forall2 (lands (bpow radix2 (-49) * 8) (s_pose place_scan)) (s_pts place_scan) pts.
Proof.
  destruct (C130_add_scan (with_nearest lm) 8 (mkNdt (b64_of 1 0) 0 0 (b64_of 0 0) (b64_of 0 0) []) place_scan (nearest_accurate lm) size8) as (pts & H & _).
  - repeat split; try reflexivity; apply b64_of_small; lia.
  - constructor; [|constructor]. split; apply b64_of_small; lia.
  - exists pts. split; [apply nearest_accurate|]. split; [apply size8|]. split; [|split; [|exact H]].
    + repeat split; try reflexivity; apply b64_of_small; lia.
    + constructor; [|constructor]. split; apply b64_of_small; lia.
Qed.
Print Assumptions C130_add_scan.
Print Assumptions C130_likelihood.
Print Assumptions C130_bounds.
Print Assumptions C130_rays.
Print Assumptions C130_search.
