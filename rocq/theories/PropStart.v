(** Property C146: starting to localize, with and without a map; C15 for every cell
    size. *)

From Coq Require Import ZArith Reals List Bool Lia Lra String.
From Flocq Require Import Core BinarySingleNaN.
From Verif Require Import Outcome Arith SpecOrigin TypesModel ScanModel CellModel NdtModel MatcherModel ConstraintModel SolverModel GraphModel
  OccGridModel MotionModel FilterModel LaserModel MapperModel SpecPose SpecLaser SpecMapper SpecMapper2 SpecNode SpecPlace64 SpecMapSafe64
  B64Tactics B64Lemmas NdtProofs LaserProofs NodeProofs3 MapperWitness2 NearestB64 PropMapSafe64.
Import ListNotations.
Local Open Scope R_scope.

(** ** C15: every ordinary cell size *)
Definition below (x : b64) : Prop := is_finite x = true -> B2R x <= -1.

Lemma below_cast (lm : libm) (bits : Z) (x : b64) : below x -> cast_unsigned (A := BA lm) bits x = Fault BadCast.
Proof.
  intros B. unfold cast_unsigned. cbn [ntrunc BA]. destruct (is_finite x) eqn:F.
  - rewrite b64_trunc_ok by exact F. specialize (B F).
    assert (Ztrunc (B2R x) <= -1)%Z by (rewrite <- (Ztrunc_IZR (-1)); apply Ztrunc_le; exact B).
    destruct (Z.leb_spec 0 (Ztrunc (B2R x))); [lia|]. reflexivity.
  - unfold b64_trunc. rewrite F. reflexivity.
Qed.

Lemma inf_not_finite (x : b64) (s : bool) : B2SF x = binary_overflow 53 1024 mode_NE s -> is_finite x = false.
Proof. destruct x; cbn; intros H; try reflexivity; try discriminate H. Qed.

Lemma below_plus_one (x : b64) : (is_finite x = true -> B2R x <= -3) -> below (Bplus mode_NE x (b64_of 1 0)).
Proof.
  intros B F. destruct (b64_ofZ 1 ltac:(lia)) as [E1 F1]. destruct (is_finite x) eqn:Fx.
  - pose proof (Bplus_correct 53 1024 _ _ mode_NE x (b64_of 1 0) Fx F1) as H. specialize (B eq_refl).
    destruct (Rlt_bool _ _).
    + destruct H as [E _]. rewrite E, E1. apply (rnd_ub (B2R x + 1) (-1)); [apply (fmt_int (-1)); lia|lra].
    + destruct H as [H _]. rewrite (inf_not_finite _ _ H) in F. discriminate F.
  - clear - Fx F. destruct x as [[]|[]| |[] ? ? ?]; try discriminate Fx; cbn in F; discriminate F.
Qed.

Lemma far_below (a res : b64) : is_finite a = true -> B2R a <= - bpow radix2 1023 -> 0 < B2R res <= bpow radix2 900 ->
  is_finite (Bdiv mode_NE a res) = true -> B2R (Bdiv mode_NE a res) <= -3.
Proof.
  intros Fa Ba [Pr Hr] F. pose proof (Bdiv_correct 53 1024 _ _ mode_NE a res ltac:(lra)) as H.
  destruct (Rlt_bool _ _).
  - destruct H as [E _]. rewrite E. apply (rnd_ub (B2R a / B2R res) (-3)); [apply (fmt_int (-3)); lia|].
    apply Rmult_le_reg_r with (B2R res); [exact Pr|]. unfold Rdiv. rewrite Rmult_assoc, Rinv_l, Rmult_1_r by lra.
    assert (3 * bpow radix2 900 <= bpow radix2 1023).
    { apply Rle_trans with (bpow radix2 2 * bpow radix2 900); [apply Rmult_le_compat_r; [apply bpow_ge_0|cbn; lra]|].
      rewrite <- bpow_plus. apply bpow_le. lia. }
    lra.
  - rewrite (inf_not_finite _ _ H) in F. discriminate F.
Qed.

(** Whatever the parameters, as long as the cells are smaller than 2^900 m. *)
Theorem C15_every_cell_size_refuted (lm : libm) (eig : mat2 b64 -> b64 * b64) (m : matcher b64) :
  0 < B2R (k_resolution m) <= bpow radix2 900 -> add_scans (A := BA lm) eig m [] = Fault BadCast.
Proof.
  intros Hr. unfold add_scans, scans_box. cbn [fold_left]. unfold ndt_new.
  set (x := nsub (Arith := BA lm) _ _).
  assert (E : x = Bopp Bmax_float) by (unfold x; b64_compute). rewrite E. clear x E.
  rewrite (below_cast lm 64); [reflexivity|].
  apply (below_plus_one (Bdiv mode_NE (Bopp Bmax_float) (k_resolution m))). intros F. apply far_below; try assumption; [reflexivity|].
  rewrite B2R_Bopp. apply Ropp_le_contravar. unfold B2R, Bmax_float, F2R. cbn [Fnum Fexp cond_Zopp].
  apply Rle_trans with (bpow radix2 52 * bpow radix2 971); [rewrite <- bpow_plus; apply bpow_le; lia|].
  apply Rmult_le_compat; try apply bpow_ge_0; [|apply bpow_le; cbn; lia].
  change (bpow radix2 52) with (IZR (2 ^ 52)). apply IZR_le. cbn. lia.
Qed.

(** ** C146 *)

(** The first message of a known laser to a node that localizes without a map. *)
Theorem C146_no_map_refuted (lm : libm) (cf : config b64) (m : mapper b64) (g : graph b64) (e : laser_ev b64) :
  sp_pc (mp_spin m) = SIdle -> sp_frame (mp_spin m) = EmptyString -> mounted e = true ->
  the_graph cf (mp_sh m) = Ok g -> gr_scans g = [] -> (cf_filter cf <> None \/ sh_enable (mp_sh m) = false) ->
  (forall r, 0 < B2R (k_resolution (en_global cf r)) <= bpow radix2 900) ->
  step (A := BA lm) cf (Deliver (EvLaser e)) m = Some (Fault BadCast).
Proof.
  intros Pc Fr Mo G N L Hr. unfold step, deliver. rewrite Pc. cbn [option_map]. f_equal.
  unfold laser_begin, learn_laser. cbv zeta. cbn [learn_range sp_frame]. rewrite Fr. cbn [String.eqb].
  unfold mounted in Mo. destruct (le_laser e) as [t|]; [|discriminate Mo].
  assert (E : use_filter cf || negb (sh_enable (mp_sh m)) = true).
  { unfold use_filter. destruct L as [L|L]; [destruct (cf_filter cf); [reflexivity|congruence]|rewrite L; apply orb_true_r]. }
  rewrite E. unfold the_graph in G. apply bind_ok in G. destruct G as (scans & Gs & G). injection G as <-. cbn [gr_scans] in N. subst scans.
  rewrite Gs. cbn [bind]. rewrite C15_every_cell_size_refuted by apply Hr. reflexivity.
Qed.

(** From the start of the node. *)
Theorem C146_start_refuted (lm : libm) (cf : config b64) (e : laser_ev b64) :
  cf_file cf = None -> cf_filter cf = None -> cf_enable cf = false -> mounted e = true ->
  (forall r, 0 < B2R (k_resolution (en_global cf r)) <= bpow radix2 900) ->
  run (A := BA lm) cf [Deliver (EvLaser e)] = Fault BadCast.
Proof.
  intros F Fi En Mo Hr. unfold run, mapper_init. rewrite F, Fi, En. cbn [bind]. cbv zeta. cbn [exec].
  rewrite (C146_no_map_refuted lm cf _ (mkGraph (cf_use_bary cf) [] []) e); try reflexivity; try assumption. right. reflexivity.
Qed.

(** What a message needs for its readings to be turned into points. *)
Definition readable {T} {A : Arith T} (e : laser_ev T) : Prop :=
  lr_ranges (le_msg e) <> [] /\ exists ns, sweep_ns (List.length (lr_ranges (le_msg e))) (le_time_inc e) = Ok ns.

Lemma points_ok {T} {A : Arith T} inv (r : T) laser odom e m : lr_ranges m <> [] -> exists pts, scan_points inv r laser odom e m = Ok pts.
Proof.
  intros N. unfold scan_points. destruct inv; [|eexists; reflexivity]. destruct (lr_ranges m) as [|x l] eqn:E; [congruence|].
  cbn [List.length]. rewrite inverted_points_filter by (rewrite E; cbn; lia). eexists. reflexivity.
Qed.

Lemma begin_ok {T} {A : Arith T} (cf : config T) (m : mapper T) (e : laser_ev T) :
  sp_pc (mp_spin m) = SIdle -> readable e ->
  (exists r, learn_laser cf (mp_sh m) (learn_range (mp_spin m) (le_msg e)) e = Ok r) ->
  exists m', step cf (Deliver (EvLaser e)) m = Some (Ok m').
Proof.
  intros Pc (N & ns & Sw) (r & L). unfold step, deliver. rewrite Pc. cbn [option_map].
  assert (X : exists s sp, laser_begin cf (mp_sh m) (mp_spin m) e = Ok (s, sp)).
  { unfold laser_begin. cbv zeta. rewrite L. cbn [bind]. destruct r as [[s sp]|]; [|eauto]. destruct (sh_init s); [|eauto].
    destruct (le_start e) as [start|]; [|eauto]. destruct (guess_pose cf s (from_msg start)) as [guess|]; [|eauto].
    rewrite Sw. cbn [bind]. destruct (le_end e ns) as [end_|]; [|eauto].
    destruct (points_ok (sp_inverted sp) (sp_range_max sp) (sp_laser sp) (from_msg start) (from_msg end_) (le_msg e) N) as (pts & ->).
    cbn [bind alloc]. eauto. }
  destruct X as (s & sp & ->). cbn [bind]. eauto.
Qed.

(** A node that maps needs no map. *)
Theorem C146_mapping_partial {T} {A : Arith T} (cf : config T) (m : mapper T) (e : laser_ev T) :
  sp_pc (mp_spin m) = SIdle -> readable e -> cf_filter cf = None -> sh_enable (mp_sh m) = true ->
  exists m', step cf (Deliver (EvLaser e)) m = Some (Ok m').
Proof.
  intros Pc R Fi En. apply begin_ok; [exact Pc|exact R|]. unfold learn_laser. cbv zeta.
  destruct (sp_frame _ =? "")%string; [|eauto]. destruct (le_laser e) as [t|]; [|eauto].
  unfold use_filter. rewrite Fi, En. cbn [orb negb]. eauto.
Qed.

(** Neither does one that has a map. *)
Theorem C146_map_partial (lm : libm) (M : R) (cf : config b64) (m : mapper b64) (g : graph b64) (e : laser_ev b64) :
  accurate_trig lm -> usual_size M -> sp_pc (mp_spin m) = SIdle -> readable (A := BA lm) e ->
  the_graph cf (mp_sh m) = Ok g -> gr_scans g <> [] -> Forall (scan_upto M) (gr_scans g) ->
  fits_map M (en_global cf (sp_range_max (mp_spin m))) -> fits_map M (en_global cf (lr_range_max (le_msg e))) ->
  exists m', step (A := BA lm) cf (Deliver (EvLaser e)) m = Some (Ok m').
Proof.
  intros T HM Pc R G N F M1 M2. apply begin_ok; [exact Pc|exact R|]. unfold learn_laser. cbv zeta.
  destruct (sp_frame _ =? "")%string; [|eauto]. destruct (le_laser e) as [t|]; [|eauto].
  destruct (use_filter cf || negb (sh_enable (mp_sh m)))%bool; [|eauto].
  unfold the_graph in G. apply bind_ok in G. destruct G as (scans & Gs & G). injection G as <-. cbn [gr_scans] in N, F.
  rewrite Gs. cbn [bind learn_range sp_range_max].
  set (r := if nlt (Arith := BA lm) (sp_range_max (mp_spin m)) (nzero (A := BA lm)) then lr_range_max (le_msg e) else sp_range_max (mp_spin m)).
  assert (Fm : fits_map M (en_global cf r)) by (unfold r; destruct (nlt _ _); assumption).
  destruct (C145_build lm M (en_eig cf) (en_global cf r) scans T HM Fm N F) as (k & ->). cbn [bind]. eauto.
Qed.
Print Assumptions C146_start_refuted.
Print Assumptions C146_map_partial.

Definition start_ev : laser_ev b64 :=
  mkLaserEv (mkLaser (z64 0) (z64 0) (z64 2) [z64 1]) "laser" (Some (at64 0 0)) (Some (at64 0 0)) (z64 0) (fun _ => Some (at64 0 0)) (fun _ _ _ => z64 0) [].

Lemma matcher64_fits : fits_map 8 matcher64.
Proof.
  destruct (b64_ofZ 4 ltac:(lia)) as [E4 F4]. destruct (b64_ofZ 2 ltac:(lia)) as [E2 F2].
  unfold fits_map, matcher64, z64, upto. cbn [k_resolution k_range]. rewrite E4, E2, (Rabs_pos_eq 2) by lra. repeat split; try assumption; lra.
Qed.

(** Without a map, the first message of a node that does not map is its end. *)
Example C146_start_nonvacuous (lm : libm) : run (A := BA lm) (cf64 lm 10 1 0 None false None) [Deliver (EvLaser start_ev)] = Fault BadCast.
Proof.
  apply C146_start_refuted; try reflexivity. intros r. destruct (b64_ofZ 4 ltac:(lia)) as [E4 _].
  change (k_resolution (en_global (cf64 lm 10 1 0 None false None) r)) with (b64_of 4 0). rewrite E4. split; [lra|].
  apply Rle_trans with (bpow radix2 2); [cbn; lra|apply bpow_le; lia].
Qed.

(** With a map of one scan, the same message is processed. *)
Example C146_map_nonvacuous (lm : libm) : let cf := cf64 lm 10 1 0 None false (Some one_scan) in
  exists m m', run (A := BA (with_nearest lm)) cf [] = Ok m /\ step (A := BA (with_nearest lm)) cf (Deliver (EvLaser start_ev)) m = Some (Ok m').
Proof.
  intros cf. destruct (run (A := BA (with_nearest lm)) cf []) as [m|f] eqn:E; [|discriminate E]. exists m.
  assert (S : exists ns, sweep_ns (A := BA (with_nearest lm)) 1 (z64 0) = Ok ns).
  { exists 0%Z. reflexivity. }
  assert (X : exists m', step (A := BA (with_nearest lm)) cf (Deliver (EvLaser start_ev)) m = Some (Ok m')).
  { injection E as <-.
    apply (C146_map_partial (with_nearest lm) 8 cf _ (mkGraph false [scan_of_msg (A := BA (with_nearest lm)) (mkScanMsg 0 (mkGpoint (z64 0) (z64 0) (z64 0)) (mkGquat (z64 0) (z64 0) (z64 0) (z64 0)) (map (fun p => mkGpoint (px p) (py p) (z64 0)) cross))] [])).
    - apply nearest_accurate.
    - apply PropPlace64.size8.
    - reflexivity.
    - split; [discriminate|exact S].
    - reflexivity.
    - discriminate.
    - constructor; [|constructor]. split.
      + split; [apply PropPlace64.b64_of_small; lia|]. split; [apply PropPlace64.b64_of_small; lia|reflexivity].
      + repeat (constructor; [split; apply PropPlace64.b64_of_small; lia|]). constructor.
    - exact matcher64_fits.
    - exact matcher64_fits. }
  destruct X as (m' & X). exists m'. split; [reflexivity|exact X].
Qed.

(** A node that maps, without a map. *)
Example C146_mapping_nonvacuous (lm : libm) : let cf := cf64 lm 10 1 0 None true None in
  exists m m', run (A := BA lm) cf [] = Ok m /\ step (A := BA lm) cf (Deliver (EvLaser start_ev)) m = Some (Ok m').
Proof.
  intros cf. destruct (run (A := BA lm) cf []) as [m|f] eqn:E; [|discriminate E]. exists m.
  assert (X : exists m', step (A := BA lm) cf (Deliver (EvLaser start_ev)) m = Some (Ok m')).
  { injection E as <-. apply (C146_mapping_partial (A := BA lm)); try reflexivity. split; [discriminate|].
    assert (S : exists ns, sweep_ns (A := BA lm) 1 (z64 0) = Ok ns) by (exists 0%Z; reflexivity). exact S. }
  destruct X as (m' & X). exists m'. split; [reflexivity|exact X].
Qed.
