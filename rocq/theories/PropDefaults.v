(** C179: the node and the scan matcher without any parameter set
    (README.md:17-20, "Mapping: default parameters will lead to this use case"). *)

From Coq Require Import Reals Psatz ZArith List Bool String Lia.
From Flocq Require Import Core BinarySingleNaN.
From Verif Require Import Outcome Arith RTactics SpecGrid SpecSearch SpecLaser TypesModel ScanModel NdtModel MatcherModel ConstraintModel SolverModel GraphModel
  OccGridModel LaserModel MapperModel SpecMapper SpecMapper2 SpecMapper4 SpecDefaults DefaultsModel NdtProofs MatcherProofs MatcherProofs2 MatcherB64b LaserProofs
  MapperProofs MapperSteps MapperInv3 DefaultsProofs PropNdt PropMatcher PropMapper2 MapperWitness2.
Import ListNotations.
Local Open Scope R_scope.

(** Without any parameter set the node maps, whatever the messages and the
    schedule, as long as no request is made.  Every arithmetic. *)
Theorem C179_defaults_map : forall {T} {A : Arith T} eig search ceres fuel garbage (m : mapper T),
  reach_if (default_config eig search ceres fuel garbage) no_request m -> maps m.
Proof. intros T A eig search ceres fuel garbage m R. exact (maps_reach (default_config eig search ceres fuel garbage) eq_refl eq_refl eq_refl m R). Qed.
Print Assumptions C179_defaults_map.

(** A scan after the first one is left out because the robot stands still exactly if
    it moved less than 10 cm and turned less than 1 rad. *)
Theorem C179_defaults_motion : forall eig search ceres fuel garbage (s : shared R) (odom : pose R),
  sh_scans s <> [] ->
  (guess_pose (default_config eig search ceres fuel garbage) s odom = None <-> ~ SpecLaser.moved (1 / 10) 1 (sh_odom s) odom).
Proof.
  intros eig search ceres fuel garbage s odom N. unfold guess_pose. destruct (sh_scans s) as [|p ps]; [contradiction|].
  assert (E : nlit (T := R) 1 10 = 1 / 10) by (ra; lra). assert (E1 : nofZ (T := R) 1 = 1) by (ra; lra).
  cbn [default_config cf_min_dist cf_min_rot]. rewrite E, E1.
  rewrite <- (small_motion_spec (1 / 10) 1 (sh_odom s) odom) by lra.
  destruct (small_motion (1 / 10) 1 (sh_odom s) odom); split; intro H; congruence.
Qed.
Print Assumptions C179_defaults_motion.

(** Loop closure matches a scan against at most three others. *)
Theorem C179_defaults_closure : forall {T} {A : Arith T} eig search ceres fuel garbage (m : mapper T),
  let cf := default_config eig search ceres fuel garbage in
  search_in_range search -> reach_if cf (tame cf) m ->
  closures_vetted 10 (sh_trace (mp_sh m)) /\ forall d, (Z.of_nat (matches d (sh_trace (mp_sh m))) <= 3)%Z.
Proof.
  intros T A eig search ceres fuel garbage m cf S R.
  destruct (C70_loop_closures_vetted cf ltac:(cbn; lia) S ltac:(cbn; lia) ltac:(intros file E; discriminate E) m R) as (H1 & _ & H3).
  split; [exact H1|exact H3].
Qed.
Print Assumptions C179_defaults_closure.

(** ** The matcher *)
Lemma search_pose {T} {A : Arith T} (fuel : nat) (m : matcher T) (s : scan T) (p p' : pose T) (cov cov' : mat3 T) (r : T) :
  match_scan fuel m s p cov = Ok (r, p', cov') ->
  p' = p \/ exists ths ds, loop_values fuel (nopp (k_ang_size m)) (k_ang_size m) (k_ang_res m) = Ok ths /\
    loop_values fuel (nopp (k_lin_size m)) (k_lin_size m) (k_lin_res m) = Ok ds /\ In (pox p') ds /\ In (poy p') ds /\ In (poth p') ths.
Proof.
  intro H. unfold match_scan in H. destruct (k_ndt m) as [g|]; [|injection H as _ <- _; left; reflexivity].
  apply bind_ok in H. destruct H as (ths & E1 & H). apply bind_ok in H. destruct H as (ds & E2 & H).
  apply bind_ok in H. destruct H as (w & W & H). injection H as _ <- _.
  set (P := fun w : mstate T => w_pose w = p \/ (In (pox (w_pose w)) ds /\ In (poy (w_pose w)) ds /\ In (poth (w_pose w)) ths)).
  assert (I : P w).
  { refine (foldM_inv P _ ths _ _ w _ W); [|left; reflexivity].
    intros w0 th w1 I0 Ith H0. apply bind_ok in H0. destruct H0 as (bp & _ & H0).
    refine (foldM_inv P _ ds _ w0 w1 I0 H0). intros w2 dx w3 I2 Idx H2. refine (foldM_inv P _ ds _ w2 w3 I2 H2).
    intros w4 dy w5 I4 Idy H4. unfold match_step in H4. apply bind_ok in H4. destruct H4 as (l & _ & H4). injection H4 as <-.
    unfold P. cbn [w_pose]. destruct (nlt _ _); [right; repeat split; assumption|exact I4]. }
  destruct I as [I|I]; [left; exact I|right; exists ths, ds; auto].
Qed.

Lemma add_scans_keeps {T} {A : Arith T} eig (m m' : matcher T) scans : add_scans eig m scans = Ok m' ->
  exists g, m' = with_ndt m (Some g).
Proof. intro H. apply add_scans_run in H. destruct H as (g0 & g & _ & _ & E). exists g. exact E. Qed.

(** Matching against a map changes a pose by at most 5 cm along each axis and 0.1 rad ... *)
Theorem C179_default_correction : forall eig range (m : matcher R) scans fuel s p cov r p' cov',
  add_scans eig (matcher_default range) scans = Ok m -> match_scan fuel m s p cov = Ok (r, p', cov') ->
  p' = p \/ small_correction p'.
Proof.
  intros eig range m scans fuel s p cov r p' cov' H M. apply add_scans_keeps in H. destruct H as [g ->].
  apply search_pose in M. destruct M as [M|(ths & ds & E1 & E2 & X & Y & Z0)]; [left; exact M|right].
  unfold matcher_default, with_ndt in *. cbn [k_ang_size k_ang_res k_lin_size k_lin_res] in *.
  apply loop_values_axis in E1; [|ra; lra]. apply loop_values_axis in E2; [|ra; lra]. subst ths ds.
  apply axis_range in X; [|ra; lra]. apply axis_range in Y; [|ra; lra]. apply axis_range in Z0; [|ra; lra].
  ra_in X. ra_in Y. ra_in Z0. unfold small_correction. repeat split; apply Rabs_le; lra.
Qed.
Print Assumptions C179_default_correction.

(** ... in double arithmetic by at most 5.01 cm along each axis and 0.1001 rad. *)
Definition small_b (a b : Z) (d : b64) : bool :=
  match d with
  | B754_zero _ => true
  | B754_finite s m e _ => (e <=? 0)%Z && (Zpos m * b <=? a * 2 ^ (- e))%Z
  | _ => false
  end.
Lemma small_sound (a b : Z) (d : b64) : (0 < b)%Z -> (0 <= a)%Z -> small_b a b d = true -> is_finite d = true /\ Rabs (B2R d) <= IZR a / IZR b.
Proof.
  intros Pb Pa H. assert (0 < IZR b) by (apply IZR_lt; exact Pb). assert (0 <= IZR a) by (apply IZR_le; exact Pa).
  destruct d as [s|s| |s m e W]; try discriminate H.
  - split; [reflexivity|]. cbn [B2R]. rewrite Rabs_R0. apply Rmult_le_pos; [assumption|]. left. apply Rinv_0_lt_compat. assumption.
  - split; [reflexivity|]. cbn [small_b] in H. apply andb_prop in H. destruct H as [G1 G2]. apply Z.leb_le in G1, G2.
    cbn [B2R]. rewrite <- F2R_Zabs, abs_cond_Zopp. cbn [Z.abs]. unfold F2R. cbn [Fnum Fexp].
    apply IZR_le in G2. rewrite !mult_IZR in G2. rewrite (IZR_Zpower radix2) in G2 by lia. rewrite bpow_opp in G2.
    pose proof (bpow_gt_0 radix2 e). apply (Rmult_le_reg_r (IZR b * / bpow radix2 e)).
    { apply Rmult_lt_0_compat; [assumption|]. apply Rinv_0_lt_compat. assumption. }
    replace (IZR (Zpos m) * bpow radix2 e * (IZR b * / bpow radix2 e)) with (IZR (Zpos m) * IZR b) by (field; lra).
    replace (IZR a / IZR b * (IZR b * / bpow radix2 e)) with (IZR a * / bpow radix2 e) by (field; split; lra). exact G2.
Qed.
Definition all_small (a b : Z) (o : outcome (list b64)) : bool := match o with Ok l => forallb (small_b a b) l | Fault _ => false end.

Lemma same_loop {T} {A : Arith T} (n k : nat) : forall (d size res : T) l l',
  loop_values n d size res = Ok l -> loop_values k d size res = Ok l' -> l = l'.
Proof.
  revert k. induction n as [|n IH]; intros k d size res l l' H H'; [discriminate H|]. destruct k as [|k]; [discriminate H'|].
  cbn [loop_values] in H, H'. destruct (nlt d size); [|congruence].
  apply bind_ok in H. destruct H as (r & E & H). apply bind_ok in H'. destruct H' as (r' & E' & H').
  rewrite (IH k _ _ _ _ _ E E') in H. congruence.
Qed.

Theorem C179_default_correction_doubles : forall (lm : libm) eig range (m : matcher b64) scans fuel s p cov r p' cov',
  add_scans (A := BA lm) eig (matcher_default (A := BA lm) range) scans = Ok m ->
  match_scan (A := BA lm) fuel m s p cov = Ok (r, p', cov') ->
  p' = p \/ (is_finite (pox p') = true /\ is_finite (poy p') = true /\ is_finite (poth p') = true /\
    Rabs (B2R (pox p')) <= 501 / 10000 /\ Rabs (B2R (poy p')) <= 501 / 10000 /\ Rabs (B2R (poth p')) <= 1001 / 10000).
Proof.
  intros lm eig range m scans fuel s p cov r p' cov' H M. apply (add_scans_keeps (A := BA lm)) in H. destruct H as [g ->].
  apply (search_pose (A := BA lm)) in M. destruct M as [M|(ths & ds & E1 & E2 & X & Y & Z0)]; [left; exact M|right].
  assert (L : forall l, default_linear lm = Ok l -> forall d, In d l -> is_finite d = true /\ Rabs (B2R d) <= 501 / 10000).
  { assert (C : all_small 501 10000 (default_linear lm) = true) by (vm_compute; reflexivity).
    intros l E d I. unfold all_small in C. rewrite E in C. rewrite forallb_forall in C. apply (small_sound 501 10000); [lia|lia|exact (C d I)]. }
  assert (W : forall l, default_angular lm = Ok l -> forall d, In d l -> is_finite d = true /\ Rabs (B2R d) <= 1001 / 10000).
  { assert (C : all_small 1001 10000 (default_angular lm) = true) by (vm_compute; reflexivity).
    intros l E d I. unfold all_small in C. rewrite E in C. rewrite forallb_forall in C. apply (small_sound 1001 10000); [lia|lia|exact (C d I)]. }
  destruct (C26_default_search_refuted lm) as (l & El & _). destruct (C26_default_angular_partial lm) as (w & Ew & _).
  assert (Q1 : ths = w) by exact (same_loop (A := BA lm) _ _ _ _ _ _ _ E1 Ew).
  assert (Q2 : ds = l) by exact (same_loop (A := BA lm) _ _ _ _ _ _ _ E2 El). subst ths ds.
  destruct (L l El _ X), (L l El _ Y), (W w Ew _ Z0). repeat split; assumption.
Qed.
Print Assumptions C179_default_correction_doubles.

(** At most 100 points of a scan are used, all of them if there are no more. *)
Theorem C179_default_beams : forall (lm : libm) eig range (m : matcher b64) scans (pts : list (point b64)),
  add_scans (A := BA lm) eig (matcher_default (A := BA lm) range) scans = Ok m -> pts <> [] -> (Z.of_nat (List.length pts) <= 2 ^ 52)%Z ->
  exists bp, beam_points (A := BA lm) m pts = Ok bp /\ List.length bp = Nat.min 100 (List.length pts) /\
    ((List.length pts <= 100)%nat -> bp = pts).
Proof.
  intros lm eig range m scans pts H N L. apply (add_scans_keeps (A := BA lm)) in H. destruct H as [g ->].
  destruct (C23_beam_subsampling lm (with_ndt (matcher_default (A := BA lm) range) (Some g)) pts) as (idxs & bp & E & F & C & _ & _ & _ & _ & A_);
    [cbn; lia|exact N|exact L|]. exists bp. split; [exact E|]. cbn [with_ndt matcher_default k_beams] in *. split.
  - assert (E2 : forall (l : list Z) (k : list (point b64)) P, Forall2 P l k -> List.length l = List.length k) by (intros l k P X; induction X; cbn; congruence).
    rewrite <- (E2 _ _ _ F). lia.
  - intro B. apply A_. lia.
Qed.
Print Assumptions C179_default_beams.

(** A cell of the map is a square of 25 cm. *)
Theorem C179_default_cells : forall eig range (m : matcher R) (g : ndt R) scans (p q : point R) i j,
  add_scans eig (matcher_default range) scans = Ok m -> k_ndt m = Some g -> (g_sx g * g_sy g < 2 ^ 31)%Z ->
  ndt_index g (px p) (py p) = Ok i -> ndt_index g (px q) (py q) = Ok j -> (0 <= i)%Z -> (0 <= j)%Z ->
  (i = j <-> exists a b, in_square (g_ox g) (g_oy g) (1 / 4) a b p /\ in_square (g_ox g) (g_oy g) (1 / 4) a b q).
Proof.
  intros eig range m g scans p q i j H G B I J Pi Pj. apply add_scans_run in H. cbv zeta in H. destruct H as (g0 & g' & N & Hrun & ->).
  cbn [with_ndt k_ndt] in G. injection G as ->.
  pose proof (ndt_run_geom eig g0 g _ Hrun) as (C & Ex & Ey & Ox & Oy & _).
  destruct (ndt_new_cells _ _ _ _ _ g0 N) as (_ & O1 & O2 & _).
  assert (E4 : nlit (T := R) 1 4 = 1 / 4) by (ra; lra).
  cbn [matcher_default k_resolution] in N. rewrite E4 in N.
  assert (S : forall x y, ndt_index g0 x y = ndt_index g x y) by (intros x y; unfold ndt_index; rewrite C, Ex, Ey, Ox, Oy; reflexivity).
  rewrite <- S in I, J. rewrite <- Ox, <- Oy, O1, O2. rewrite <- Ex, <- Ey in B.
  assert (Q4 : 0 < 1 / 4) by lra. exact (C10_ndt_separates_squares _ _ _ _ _ g0 p q i j Q4 N B I J Pi Pj).
Qed.
Print Assumptions C179_default_cells.

(** The optimizer runs only after loop closures and only if more than 25 scans were
    added since it last ran. *)
Theorem C179_defaults_cadence : forall {T} {A : Arith T} eig search ceres fuel garbage (m : mapper T),
  reach_if (default_config eig search ceres fuel garbage) no_load m -> cadence 25 (sh_trace (mp_sh m)).
Proof. intros T A eig search ceres fuel garbage m R. exact (C78_optimization_cadence_partial (default_config eig search ceres fuel garbage) m R). Qed.
Print Assumptions C179_defaults_cadence.

(** The published map has cells of 5 cm, taken as occupied above one hit in four. *)
Theorem C179_defaults_grid : forall eig search ceres fuel garbage (m : mapper R),
  reachable (default_config eig search ceres fuel garbage) m ->
  og_thresh (pb_grid (mp_pub m)) = 1 / 4 /\
  forall scans g, In (ObMap scans g) (sh_trace (mp_sh m)) -> om_resolution g = 5 / 100.
Proof.
  intros eig search ceres fuel garbage m R. destruct (grid_reach _ m R) as (_ & H & G). split.
  - rewrite H. cbn [default_config cf_occ_thresh]. ra. lra.
  - intros scans g I. rewrite (G scans g I). cbn [default_config cf_resolution]. ra. lra.
Qed.
Print Assumptions C179_defaults_grid.

(** Not vacuous: a message arrives, its scan becomes the first of the map, and the map is published. *)
Definition default64 (lm : libm) : config b64 :=
  default_config (A := BA (easy lm)) eig64 search64 no_ceres64 10 (mat3_zero (A := BA lm)).
Definition first_steps : list (label b64) := [Deliver (beam64 [z64 1] 0 0); Spin; Spin; Spin; Spin; Spin] ++ repeat Pub 6.
Example C179_nonvacuous : forall lm : libm, exists m, reach_if (A := BA (easy lm)) (default64 lm) no_request m /\
  sp_pc (mp_spin m) = SIdle /\ List.length (sh_scans (mp_sh m)) = 1%nat /\ exists scans g, In (ObMap scans g) (sh_trace (mp_sh m)).
Proof.
  intro lm. destruct (ends64_in (run (A := BA (easy lm)) (default64 lm) first_steps)
    (fun m => idle64 m && (List.length (sh_scans (mp_sh m)) =? 1)%nat && existsb (fun o => match o with ObMap _ _ => true | _ => false end) (sh_trace (mp_sh m)))) as (m & E & H); [vm_compute; reflexivity|].
  apply andb_prop in H. destruct H as [H H3]. apply andb_prop in H. destruct H as [H1 H2].
  exists m. split.
  - apply (run_reach (easy lm) _ no_request_b) with (ls := first_steps); [|vm_compute; reflexivity|exact E].
    intros m0 l0 Q a f ->. discriminate Q.
  - split; [apply idle64_sound; exact H1|]. split; [apply Nat.eqb_eq; exact H2|].
    apply existsb_exists in H3. destruct H3 as (o & I & O). destruct o; try discriminate O. eexists _, _. exact I.
Qed.

(** A map built and a scan matched with the default parameters: [C145_nonvacuous]. *)
