(** C179, continued: candidates for loop closures and the range limit with the
    default parameters. *)

From Coq Require Import Reals Psatz ZArith List Bool String Lia.
From Flocq Require Import Core.
From Verif Require Import Outcome Arith RTactics TypesModel ScanModel MatcherModel GraphModel LaserModel MapperModel DefaultsModel SpecPose SpecGraph SpecMapper SpecNode
  NdtProofs GraphProofs NodeProofs3 MapperWitness MapperWitness2 PropPlace PropNode PropSize.
Import ListNotations.

(** A scan is matched only against scans whose centre of points (its pose if it has
    none) is within 45 cm of its own: the square of the distance is below 0.2. *)
Theorem C179_default_candidates : forall eig search ceres fuel garbage m num new m' c, radius_contract search ->
  let cf := default_config (A := RA) eig search ceres fuel garbage in
  reachable cf m -> lp_pc (mp_loop m) = LFetch num new -> step cf Loop m = Some (Ok m') -> lp_pc (mp_loop m') = LCand c ->
  exists scans sc, graph_scans (mp_sh m) = Ok scans /\ nth_error scans (Z.to_nat (lp_done (mp_loop m))) = Some sc /\
    forall i csc, In i (lc_rest c) -> nth_error scans i = Some csc ->
      (distance (seen_at true csc) (seen_at true sc) * distance (seen_at true csc) (seen_at true sc) < 1 / 5)%R /\
      (distance (seen_at true csc) (seen_at true sc) < 45 / 100)%R.
Proof.
  intros eig search ceres fuel garbage m num new m' c RC cf R Pc S Pc'.
  destruct (C153_candidates_partial cf m num new m' c RC R Pc S Pc') as (g & sc & G & N & H).
  unfold the_graph in G. apply bind_ok in G. destruct G as (scans & Gs & Eg). injection Eg as <-. cbn [gr_scans] in N.
  exists scans, sc. split; [exact Gs|]. split; [exact N|]. intros i csc I Ni. destruct (H i I) as [H1 _]. unfold apart in H1. cbn [gr_scans gr_use_bary] in H1.
  rewrite Ni in H1. cbn [cf_use_bary cf_search_size cf default_config] in H1. ra_in H1.
  set (d := distance (seen_at true csc) (seen_at true sc)) in *. assert (D : (d * d < 1 / 5)%R) by lra. split; [exact D|].
  destruct (Rlt_le_dec d (45 / 100)) as [Q|Q]; [exact Q|]. nra.
Qed.
Print Assumptions C179_default_candidates.

(** The range limit is that of the first laser message. *)
Theorem C179_default_range : forall eig search ceres fuel garbage ls m,
  let cf := default_config (A := RA) eig search ceres fuel garbage in
  run cf ls = Ok m -> Forall (fun e => (0 <= lr_range_max (le_msg e))%R) (received cf ls) ->
  forall e es, received cf ls = e :: es -> sp_range_max (mp_spin m) = lr_range_max (le_msg e).
Proof.
  intros eig search ceres fuel garbage ls m cf E F e es Rc.
  rewrite (C84_range_limit cf ls m E).
  - rewrite Rc. assert (N : nlt (cf_range_max cf) nzero = true) by (cbn [cf_range_max cf default_config]; ra; apply Rlt_bool_true; lra). rewrite N. reflexivity.
  - apply Forall_impl with (2 := F). intros x Hx. ra. apply Rlt_bool_false. exact Hx.
Qed.
Print Assumptions C179_default_range.

Theorem C179_default_range_doubles : forall (lm : libm) eig search ceres fuel garbage ls m,
  let cf := default_config (A := BA lm) eig search ceres fuel garbage in
  run (A := BA lm) cf ls = Ok m -> Forall (fun e => nlt (Arith := BA lm) (lr_range_max (le_msg e)) (nzero (A := BA lm)) = false) (received (A := BA lm) cf ls) ->
  forall e es, received (A := BA lm) cf ls = e :: es -> sp_range_max (mp_spin m) = lr_range_max (le_msg e).
Proof.
  intros lm eig search ceres fuel garbage ls m cf E F e es Rc.
  rewrite (C84_range_limit (A := BA lm) cf ls m E F), Rc.
  assert (N : nlt (Arith := BA lm) (cf_range_max cf) (nzero (A := BA lm)) = true) by (vm_compute; reflexivity). rewrite N. reflexivity.
Qed.
Print Assumptions C179_default_range_doubles.

(** Twelve scans at one place, loaded by a request: the first is a candidate for the
    last. *)
Definition dozen : list (bag_msg R) := map (fun i => scan_file i 0 0 []) [0; 1; 2; 3; 4; 5; 6; 7; 8; 9; 10; 11]%Z.
Definition default_by (search : @radius_oracle R) : config R := default_config (A := RA) (fun m => (m00 m, m11 m)) search no_ceres 10 mat3_zero.
Definition dozen_steps : list (label R) := [Deliver (EvConfigure 4 dozen); Spin; Spin] ++ repeat Loop 5.
Lemma dozen_fetch : forall search, ends (run (default_by search) dozen_steps)
  (fun m => match lp_pc (mp_loop m) with LFetch 12 false => true | _ => false end) = true.
Proof. intro search. vm_compute. reflexivity. Qed.
Lemma dozen_found : forall search, match run (default_by search) (dozen_steps ++ [Loop]) with
  | Ok m => match lp_pc (mp_loop m) with LCand c => Some (lc_rest c) | _ => None end
  | Fault _ => None
  end = Some (search [mkPoint 0 0] (mkPoint 0 0) (nlit 2 10))%R.
Proof. intro search. vm_compute. reflexivity. Qed.
Example C179_candidates_nonvacuous : let cf := default_by search_exact in
  exists m num new m' c, radius_contract search_exact /\ reachable cf m /\
  lp_pc (mp_loop m) = LFetch num new /\ step cf Loop m = Some (Ok m') /\ lp_pc (mp_loop m') = LCand c /\ In 0%nat (lc_rest c).
Proof.
  intro cf. destruct (ends_in _ _ (dozen_fetch search_exact)) as (m & E & H). pose proof (dozen_found search_exact) as P.
  change (default_by search_exact) with cf in E, P.
  destruct (lp_pc (mp_loop m)) as [| | | | |num new| | | | | | | | | | |] eqn:Pc; try discriminate H. clear H.
  destruct (run cf (dozen_steps ++ [Loop])) as [m'|f] eqn:E'; [|discriminate P].
  pose proof (run_split cf _ _ _ _ E E') as X. cbn [exec] in X.
  destruct (step cf Loop m) as [[m1|f]|] eqn:S; [|discriminate X|].
  - cbn [bind] in X. injection X as ->. destruct (lp_pc (mp_loop m')) as [| | | | | |c| | | | | | | | | |] eqn:Pc'; try discriminate P. injection P as P.
    exists m, num, new, m', c. split; [exact search_exact_contract|].
    split; [eexists; exact E|]. split; [exact Pc|]. split; [exact S|]. split; [exact Pc'|]. rewrite P.
    destruct (search_exact_contract [mkPoint 0 0] (mkPoint 0 0) (nlit 2 10))%R as (_ & K & _). apply K.
    exists (mkPoint 0 0)%R. split; [reflexivity|]. unfold sq_dist. cbn. lra.
  - injection X as <-. rewrite Pc in P. discriminate P.
Qed.

(** A first message with a range of 5 m. *)
Definition ranged_ev : laser_ev R := mkLaserEv (mkLaser 0 0 5 [])%R "laser"%string None None 0%R (fun _ => None) (fun _ _ _ => 0%R) [].
Example C179_range_nonvacuous : exists m, let cf := default_by search_exact in run cf [Deliver (EvLaser ranged_ev)] = Ok m /\
  received cf [Deliver (EvLaser ranged_ev)] = [ranged_ev] /\ sp_range_max (mp_spin m) = 5%R.
Proof.
  destruct (learn_run (default_by search_exact) ranged_ev eq_refl eq_refl eq_refl eq_refl) as (m & E & Rc). exists m. cbv zeta. split; [exact E|]. split; [exact Rc|].
  refine (C179_default_range _ _ _ _ _ _ m E _ ranged_ev [] Rc). unfold default_by in Rc. rewrite Rc. constructor; [cbn; lra|constructor].
Qed.
