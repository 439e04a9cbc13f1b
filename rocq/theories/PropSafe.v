(** C103: which failures are possible at all. *)

From Coq Require Import ZArith List Bool String Lia.
From Flocq Require Import Core BinarySingleNaN.
From Verif Require Import Outcome Arith TypesModel ScanModel NdtModel MatcherModel ConstraintModel
  SolverModel GraphModel OccGridModel MotionModel FilterModel LaserModel MapperModel SpecMapper SpecMapper2 SpecMapper4 SpecSafe
  MatcherB64 MapperInv3 MapperWitness2 PropMapper3 SafeProofs SafeInv.
Import ListNotations.

(** In binary64 a beam index never leaves a scan of at most 2^52 points. *)
Lemma beams_in_b64 : forall (lm : libm) (k : matcher b64) pts, (Z.of_nat (List.length pts) <= 2 ^ 52)%Z -> beams_in (A := BA lm) k pts.
Proof.
  intros lm k pts L i idx Hi H. unfold beams_used in Hi. set (n := Z.of_nat (List.length pts)) in *. set (u := Z.min (k_beams k) n) in *.
  unfold scan_step_size, beams_used in H. fold n in H. fold u in H.
  change (ndiv (Arith := BA lm) (nofZ n) (nofZ u)) with (Bdiv mode_NE (b64_of n 0) (b64_of u 0)) in H.
  assert (U1 : (1 <= u)%Z) by lia. assert (U2 : (u <= n)%Z) by lia.
  rewrite beam_index_b64 in H by assumption. injection H as <-. apply exact_index_bounds; assumption.
Qed.

(** The node starts. *)
Theorem C103_node_starts : forall {T} {A : Arith T} (cf : config T), sane cf -> exists m, mapper_init cf = Ok m.
Proof.
  intros T A cf [_ S]. unfold mapper_init. destruct (cf_filter cf) as [[[mn mx] mo]|]; [|eexists; reflexivity].
  destruct (filter_new_ok (T := T) mn mx mo S) as (f & E & _). rewrite E. eexists. reflexivity.
Qed.
Print Assumptions C103_node_starts.

Theorem C103_memory_safe : forall (lm : libm) (cf : config b64),
  sane cf -> search_in_range (en_search cf) -> chained_start (A := BA lm) cf -> good_start (A := BA lm) cf -> fresh_matchers cf ->
  forall m l f, reach_if (A := BA lm) cf (careful (A := BA lm) cf) m -> careful (A := BA lm) cf m l -> ~ drawing m l ->
  step (A := BA lm) cf l m = Some (Fault f) -> numeric f.
Proof.
  intros lm cf Sa Sr Ch Go Fr m l f R C D H.
  exact (only_numeric (A := BA lm) cf Sa Sr Ch Go Fr (beams_in_b64 lm) m l f R C D H).
Qed.
Print Assumptions C103_memory_safe.

(** ** Witness *)
Section Check.
Context {T : Type} {A : Arith T}.
Definition cells_b (k : matcher T) (scans : list (scan T)) : bool :=
  let b := scans_box (k_range k) scans in
  match ndt_new (k_resolution k) (nsub (b_maxx b) (b_minx b)) (nsub (b_maxy b) (b_miny b)) (b_minx b) (b_miny b) with
  | Ok g => (g_sx g * g_sy g <? 2 ^ 31)%Z
  | Fault _ => true
  end.
Definition all_cells_b (k : matcher T) (scans : list (scan T)) : bool :=
  let n := List.length scans in
  forallb (fun b => forallb (fun c => cells_b k (firstn c (skipn b scans))) (seq 0 (n + 1 - b))) (seq 0 (n + 1)).
Definition matchers_at (cf : config T) (m : mapper T) (l : label T) : list (matcher T) :=
  match sp_local (mp_spin m) with Some k => [k] | None => [] end ++ match sh_global (mp_sh m) with Some k => [k] | None => [] end ++
  match l with
  | Deliver (EvLaser e) => [en_global cf (if nlt (sp_range_max (mp_spin m)) nzero then lr_range_max (le_msg e) else sp_range_max (mp_spin m))]
  | _ => []
  end.
Definition careful_b (cf : config T) (m : mapper T) (l : label T) : bool :=
  ((num_scans (mp_sh m) <? 2 ^ 31)%Z && match sp_pc (mp_spin m) with SLoad _ | SScanLock _ _ | SScanPush _ _ => match l with Spin => match sp_pc (mp_spin m) with SLoad _ => false | _ => true end | _ => false end | _ => true end) &&
  match sh_global (mp_sh m), sh_scans (mp_sh m) with None, _ :: _ => match l with Loop => false | _ => true end | _, _ => true end &&
  match graph_scans (mp_sh m) with Ok scans => forallb (fun k => all_cells_b k scans) (matchers_at cf m l) | Fault _ => false end &&
  forallb (fun sc => (Z.of_nat (List.length (s_pts sc)) <=? 2 ^ 52)%Z) (sh_heap (mp_sh m)) &&
  match l with Deliver (EvLaser e) => match lr_ranges (le_msg e) with [] => false | _ => true end | _ => true end &&
  match sp_pc (mp_spin m), sp_filter (mp_spin m) with
  | SFilter _ _ _ draws, Some f => forallb (fun i => (0 <=? i)%Z && (i <? Z.of_nat (List.length (pf_parts f)))%Z) draws
  | _, _ => true
  end.

Lemma cells_sound : forall k scans, cells_b k scans = true -> cells_fit k scans.
Proof. intros k scans H g E. unfold cells_b in H. cbv zeta in H. rewrite E in H. apply Z.ltb_lt. exact H. Qed.
Lemma all_cells_sound : forall k scans some, all_cells_b k scans = true -> (exists before after, scans = before ++ some ++ after) -> cells_fit k some.
Proof.
  intros k scans some H (before & after & ->). unfold all_cells_b in H. cbv zeta in H. rewrite forallb_forall in H.
  assert (N : List.length (before ++ some ++ after) = (List.length before + (List.length some + List.length after))%nat) by (rewrite !app_length; reflexivity).
  specialize (H (List.length before)). rewrite forallb_forall in H.
  specialize (H ltac:(apply in_seq; lia) (List.length some) ltac:(apply in_seq; lia)).
  rewrite skipn_app, skipn_all, Nat.sub_diag in H. cbn [app skipn] in H. rewrite firstn_app, Nat.sub_diag, firstn_all, firstn_O, app_nil_r in H.
  apply cells_sound. exact H.
Qed.
Lemma careful_sound : forall cf m l, careful_b cf m l = true -> careful cf m l.
Proof.
  intros cf m l H. unfold careful_b in H. repeat (apply andb_prop in H; let J := fresh "J" in destruct H as [H J]).
  apply Z.ltb_lt in H.
  constructor.
  - split; [split; [exact H|]|].
    + intros -> file E. rewrite E in J4. discriminate J4.
    + intros -> _ [(p & o & E)|(p & o & E)]; rewrite E in J4; discriminate J4.
  - intros -> _ [(p & o & E)|(p & o & E)]; rewrite E in J4; discriminate J4.
  - intros -> _ N G. rewrite G in J3. destruct (sh_scans (mp_sh m)); [contradiction N; reflexivity|discriminate J3].
  - intros k scans some K G S. rewrite G in J2. rewrite forallb_forall in J2. apply (all_cells_sound k scans); [|exact S]. apply J2. unfold matchers_at.
    apply in_or_app. destruct K as [K|[K|(e & -> & ->)]].
    + left. rewrite K. left. reflexivity.
    + right. apply in_or_app. left. rewrite K. left. reflexivity.
    + right. apply in_or_app. right. left. reflexivity.
  - intros p sc E. rewrite forallb_forall in J1. apply Z.leb_le. apply J1. apply nth_error_In with p. exact E.
  - intros e -> E. rewrite E in J0. discriminate J0.
  - intros -> p odom n draws f E F. rewrite E, F in J. apply Forall_forall. intros i I. rewrite forallb_forall in J. specialize (J i I). apply andb_prop in J.
    destruct J as [J5 J6]. apply Z.leb_le in J5. apply Z.ltb_lt in J6. split; assumption.
Qed.
End Check.

(** A map of eleven scans is published, mapping is switched on, a loop is closed
    and the graph optimized; then a laser message comes in whose sweep takes
    longer than a 64-bit count of nanoseconds can say. *)
Definition safe_start : list (label b64) :=
  [Deliver (beam64 [z64 1] 0 0); Deliver (pose_ev64 half64 half64 0 0); Spin; Spin; Spin; Deliver (EvConfigure 1 [])].
Definition long_sweep : event b64 :=
  EvLaser (mkLaserEv (mkLaser (z64 0) (z64 0) (z64 2) [z64 1; z64 1]) "laser" (Some (at64 0 0)) (Some (at64 2 0)) (b64_of 1 900) (fun _ => Some (at64 2 0)) (fun _ _ _ => z64 0) []).
Definition safe_run : list (label b64) := safe_start ++ repeat Pub 6 ++ loops 18.
Definition optimized (m : mapper b64) : bool := existsb (fun o => match o with ObOptimize _ => true | _ => false end) (sh_trace (mp_sh m)).
Definition safe_end (lm : libm) (m : mapper b64) : bool :=
  careful_b (A := BA (easy lm)) (cf11 lm) m (Deliver long_sweep) && optimized m &&
  match step (A := BA (easy lm)) (cf11 lm) (Deliver long_sweep) m with Some (Fault BadCast) => true | _ => false end.
Lemma safe_run_checked : forall lm : libm, run_ok (easy lm) (cf11 lm) (careful_b (A := BA (easy lm)) (cf11 lm)) safe_run = true.
Proof. intro lm. vm_compute. reflexivity. Qed.

Lemma safe_run_ends : forall lm : libm, exists m, run (A := BA (easy lm)) (cf11 lm) safe_run = Ok m /\ safe_end lm m = true.
Proof. intro lm. apply ends64_in. vm_compute. reflexivity. Qed.

Lemma safe_end_facts : forall (lm : libm) m, safe_end lm m = true ->
  careful (A := BA (easy lm)) (cf11 lm) m (Deliver long_sweep) /\ (exists n, In (ObOptimize n) (sh_trace (mp_sh m))) /\
  step (A := BA (easy lm)) (cf11 lm) (Deliver long_sweep) m = Some (Fault BadCast).
Proof.
  intros lm m H. apply andb_prop in H. destruct H as [H H3]. apply andb_prop in H. destruct H as [H1 H2].
  split; [apply (careful_sound (A := BA (easy lm))); exact H1|]. split.
  - apply existsb_exists in H2. destruct H2 as (o & I & O). destruct o; try discriminate O. exists n. exact I.
  - destruct (step (A := BA (easy lm)) (cf11 lm) (Deliver long_sweep) m) as [[x|f]|]; try discriminate H3. destruct f; try discriminate H3. reflexivity.
Qed.

Example C103_nonvacuous : forall lm : libm,
  sane (cf11 lm) /\ search_in_range (en_search (cf11 lm)) /\ chained_start (A := BA (easy lm)) (cf11 lm) /\ good_start (A := BA (easy lm)) (cf11 lm) /\
  fresh_matchers (cf11 lm) /\
  exists m, reach_if (A := BA (easy lm)) (cf11 lm) (careful (A := BA (easy lm)) (cf11 lm)) m /\
    (exists n, In (ObOptimize n) (sh_trace (mp_sh m))) /\
    careful (A := BA (easy lm)) (cf11 lm) m (Deliver long_sweep) /\ ~ drawing m (Deliver long_sweep) /\
    step (A := BA (easy lm)) (cf11 lm) (Deliver long_sweep) m = Some (Fault BadCast).
Proof.
  intro lm. split; [split; [cbn; lia|exact I]|]. split; [exact search64_in_range|]. split; [apply cf11_chained|]. split; [apply cf11_good|].
  split; [intro r; split; reflexivity|].
  destruct (safe_run_ends lm) as (m & E & H). destruct (safe_end_facts lm m H) as (H1 & H2 & H3). exists m.
  split; [exact (run_reach (easy lm) (cf11 lm) _ _ safe_run m (careful_sound (A := BA (easy lm)) (cf11 lm)) (safe_run_checked lm) E)|].
  split; [exact H2|]. split; [exact H1|]. split; [|exact H3]. intros [J _]. discriminate J.
Qed.
