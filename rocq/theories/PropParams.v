(** C104: the integer parameters. *)

From Coq Require Import ZArith List Bool String Lia.
From Flocq Require Import Core BinarySingleNaN.
From Verif Require Import Outcome Arith TypesModel ScanModel NdtModel MatcherModel ConstraintModel
  SolverModel GraphModel OccGridModel MotionModel FilterModel LaserModel MapperModel ParamsModel
  SpecMapper SpecMapper2 SpecMapper4 SpecParams
  NdtProofs MatcherProofs GraphProofs MapperProofs MapperSteps MapperInv1 MapperInv2 MapperInv3 MapperInv6 MapperWitness2 PropMapper3.
Import ListNotations.

Lemma as_size_pos : forall v, (0 <= v < 2 ^ 31)%Z -> as_size v = v.
Proof. intros v H. unfold as_size, wrap64. apply Z.mod_small. lia. Qed.
Lemma as_size_neg : forall v, int_range v -> (v < 0)%Z -> as_size v = (2 ^ 64 + v)%Z.
Proof.
  intros v [H _] N. unfold as_size, wrap64. symmetry. apply (Z.mod_unique_pos v (2 ^ 64) (-1) (2 ^ 64 + v)); lia.
Qed.

(** ** Values that are not negative *)
Theorem C104_parameters_partial : forall {T} {A : Arith T} (cf : config T) ip, ints_ok ip ->
  ((0 <= ip_depth ip)%Z -> cf_depth (with_ints cf ip) = ip_depth ip) /\
  ((0 <= ip_search_limit ip)%Z -> cf_search_limit (with_ints cf ip) = ip_search_limit ip) /\
  ((0 <= ip_node_limit ip)%Z -> cf_node_limit (with_ints cf ip) = ip_node_limit ip) /\
  ((0 <= ip_global_beams ip)%Z -> forall r, k_beams (en_global (with_ints cf ip) r) = ip_global_beams ip) /\
  ((0 <= ip_local_beams ip)%Z -> forall r, k_beams (en_local (with_ints cf ip) r) = ip_local_beams ip) /\
  ((0 <= ip_min ip)%Z -> (0 <= ip_max ip)%Z -> forall mn mx mo, cf_filter cf = Some (mn, mx, mo) ->
     cf_filter (with_ints cf ip) = Some (ip_min ip, ip_max ip, mo) /\ node_start cf ip = mapper_init (with_ints cf ip)).
Proof.
  intros T A cf ip ((_ & I1) & (_ & I2) & (_ & I3) & (_ & I4) & (_ & I5) & (_ & I6) & (_ & I7)).
  split; [intro P; apply as_size_pos; lia|]. split; [intro P; apply as_size_pos; lia|]. split; [intro P; apply as_size_pos; lia|].
  split; [intros P r; apply as_size_pos; lia|]. split; [intros P r; apply as_size_pos; lia|].
  intros P Q mn mx mo E. unfold node_start. cbn [cf_filter with_ints]. rewrite E. cbn [option_map snd].
  rewrite (as_size_pos (ip_min ip)), (as_size_pos (ip_max ip)) by lia. split; [reflexivity|].
  unfold vector_fits. destruct (Z.leb_spec (ip_max ip) (2 ^ 63 - 1)); [|lia]. destruct (Z.leb_spec (ip_min ip) (2 ^ 63 - 1)); [|lia]. reflexivity.
Qed.
Print Assumptions C104_parameters_partial.

(** ** rolling_depth *)
Section Depth.
Context {T : Type} {A : Arith T}.
Context (cf : config T) (Big : (2 ^ 31 <= cf_depth cf)%Z).

Definition plain (o : obs T) : Prop := match o with ObMatch _ _ _ _ _ | ObConstraint ALoop _ | ObOptimize _ => False | _ => True end.
Definition waiting (m : mapper T) : Prop :=
  Forall plain (sh_trace (mp_sh m)) /\ (lp_pc (mp_loop m) = LSleep \/ lp_pc (mp_loop m) = LCountLock \/ lp_pc (mp_loop m) = LCount).

Lemma plain_other : forall l m m', step_tr cf m l m' -> l <> Loop ->
  mp_loop m' = mp_loop m /\ (Forall plain (sh_trace (mp_sh m)) -> Forall plain (sh_trace (mp_sh m'))).
Proof.
  intros l m m' H NL. destruct H as [e s' sp' Id D|s' sp' D|s' l' D|s' p' D]; cbn [mp_sh mp_loop].
  - split; [reflexivity|]. destruct D; intro F; try exact F; rewrite configure_eq; exact F.
  - split; [reflexivity|]. destruct D; intro F; try exact F; try (constructor; [exact I|exact F]).
    + destruct upd; constructor; try exact I; exact F.
    + constructor; [exact I|constructor; [exact I|exact F]].
  - contradiction NL. reflexivity.
  - split; [reflexivity|]. destruct D; intro F; try exact F; constructor; try exact I; exact F.
Qed.

Lemma waiting_reach : forall m, reach_if cf few m -> waiting m.
Proof.
  apply reach_if_inv.
  - intros m H. apply init_cases in H. destruct H as (s & f & -> & _ & ->). split; [|left; reflexivity]. cbn [mp_sh].
    destruct (cf_file cf); [constructor; [exact I|constructor]|constructor].
  - intros l m m' F [W1 W2] H. destruct l as [e| | |];
      try (destruct (plain_other _ _ _ H ltac:(discriminate)) as [E Q]; split; [apply Q; exact W1|rewrite E; exact W2]).
    inversion H as [| |s' l' D|]; subst. cbn [mp_sh mp_loop] in *. unfold few in F.
    destruct D; match goal with P : lp_pc _ = _ |- _ => rename P into Pc end; rewrite Pc in W2; try (destruct W2 as [W2|[W2|W2]]; discriminate W2);
      split; try exact W1; cbn [mp_sh mp_loop lat lp_pc]; try (rewrite Pc); auto. lia.
Qed.
End Depth.

Lemma in_plain : forall {T} (tr : list (obs T)), Forall plain tr -> no_closing tr.
Proof.
  intros T tr F. rewrite Forall_forall in F. split; [|split].
  - intros d i score typical ok H. exact (F _ H).
  - intros c H. exact (F _ H).
  - intros n H. exact (F _ H).
Qed.

(** C104: false as stated.  A negative rolling_depth is accepted, switches loop
    closure off, and makes every scan be matched against the whole map. *)
Theorem C104_parameters_refuted : forall {T} {A : Arith T} (cf : config T) ip,
  cf_filter cf = None -> int_range (ip_depth ip) -> (ip_depth ip < 0)%Z ->
  (exists m, node_start cf ip = Ok m) /\
  (forall m, reach_if (with_ints cf ip) few m -> no_closing (sh_trace (mp_sh m))) /\
  (forall X (scans : list X), (Z.of_nat (List.length scans) < 2 ^ 31)%Z -> rolling_window (cf_depth (with_ints cf ip)) scans = Ok scans).
Proof.
  intros T A cf ip F R N. pose proof (as_size_neg _ R N) as E. destruct R as [R _].
  assert (D : cf_depth (with_ints cf ip) = (2 ^ 64 + ip_depth ip)%Z) by exact E. split; [|split].
  - unfold node_start, mapper_init. cbn [cf_filter with_ints]. rewrite F. cbn [option_map bind]. eexists. reflexivity.
  - intros m H. apply in_plain. apply (waiting_reach (with_ints cf ip)); [rewrite D; lia|exact H].
  - intros X scans L. unfold rolling_window. rewrite D. destruct (Z.leb_spec (Z.of_nat (List.length scans)) (2 ^ 64 + ip_depth ip)); [|lia].
    destruct (Z.leb_spec 0 (Z.of_nat (List.length scans))); [reflexivity|lia].
Qed.
Print Assumptions C104_parameters_refuted.

(** ** optimization_node_limit *)
Section Node_limit.
Context {T : Type} {A : Arith T}.
Context (cf : config T) (Big : (2 ^ 31 <= cf_node_limit cf)%Z).

Definition never (m : mapper T) : Prop := Forall no_opt (sh_trace (mp_sh m)).

Lemma never_reach : forall m, reach_if cf unloaded m -> never m.
Proof.
  apply (reach_if_and cf unloaded never (opt_inv cf)).
  - intros m R. apply (opt_reach cf). apply (reach_if_mono cf unloaded no_load); [|exact R]. intros m0 l0 [H1 H2]. split; [lia|exact H2].
  - intros m H. apply init_cases in H. destruct H as (s & f & -> & _ & ->). unfold never. cbn [mp_sh].
    destruct (cf_file cf); [constructor; [exact I|constructor]|constructor].
  - intros l m m' [B F0] J W H. assert (F : no_load m l) by (split; [lia|exact F0]). unfold never in *. destruct l as [e| | |];
      try (destruct (opt_other cf _ _ _ F ltac:(discriminate) H) as (_ & _ & new & E & Q); rewrite E; apply Forall_app; split; assumption).
    inversion H as [| |s' l' D|]; subst. cbn [mp_sh] in *. destruct J as (_ & _ & J3 & J4). unfold opt_place in J4.
    destruct D; try exact W; try (constructor; [exact I|exact W]).
    match goal with P : lp_pc _ = _ |- _ => rewrite P in J4 end. destruct J4 as [_ J4]. lia.
Qed.
End Node_limit.

Theorem C104_negative_node_limit : forall {T} {A : Arith T} (cf : config T) ip,
  int_range (ip_node_limit ip) -> (ip_node_limit ip < 0)%Z ->
  forall m, reach_if (with_ints cf ip) unloaded m -> no_optimization (sh_trace (mp_sh m)).
Proof.
  intros T A cf ip R N m H n In_. pose proof (as_size_neg _ R N) as E. destruct R as [R _].
  assert (F : never m) by (apply (never_reach (with_ints cf ip)); [change (2 ^ 31 <= as_size (ip_node_limit ip))%Z; lia|exact H]).
  unfold never in F. rewrite Forall_forall in F. exact (F _ In_).
Qed.
Print Assumptions C104_negative_node_limit.

(** ** global_search_limit *)
Section Search_limit.
Context {T : Type} {A : Arith T}.
Context (cf : config T) (Bd : search_bounded (en_search cf)).
Context (Big : (cf_search_limit cf = 0 \/ 2 ^ 63 <= cf_search_limit cf < 2 ^ 64)%Z).

Definition room (more : Z) (c : lctx) : Prop :=
  (Z.of_nat (List.length (lc_rest c)) < 2 ^ 32)%Z /\ (lc_left c = 0 \/ Z.of_nat (List.length (lc_rest c)) + more < lc_left c)%Z /\ (lc_left c < 2 ^ 64)%Z.
Definition spare (m : mapper T) : Prop :=
  match lp_pc (mp_loop m) with
  | LCand c => room 1 c
  | LRegion c _ | LMatch c _ _ | LCorrect c _ _ _ _ | LMake c _ _ _ | LPushLock c _ | LPush c _ | LFlag c => room 2 c
  | _ => True
  end.

Lemma after_room : forall (l : looper T) c, room 2 c -> exists left, after_candidate l c = lat l (LCand (mkCtx (lc_num c) (lc_new c) (lc_scan c) (lc_rest c) left)) /\
  room 1 (mkCtx (lc_num c) (lc_new c) (lc_scan c) (lc_rest c) left).
Proof.
  intros l c (L & D & U). unfold after_candidate, room. cbn [lc_left lc_rest].
  destruct D as [D|D].
  - rewrite D. change (wrap64 (0 - 1)) with (2 ^ 64 - 1)%Z. change ((2 ^ 64 - 1 =? 0)%Z) with false. cbn iota.
    exists (2 ^ 64 - 1)%Z. split; [reflexivity|]. lia.
  - rewrite wrap64_small by lia. destruct (Z.eqb_spec (lc_left c - 1) 0); [lia|]. exists (lc_left c - 1)%Z. split; [reflexivity|]. lia.
Qed.

Lemma near_few : forall g sc near z, (Z.of_nat (List.length (gr_scans g)) < 2 ^ 31)%Z ->
  find_nearest (en_search cf) g sc (cf_search_size cf) (to_int32 z) = Ok near -> (Z.of_nat (List.length near) < 2 ^ 32)%Z.
Proof.
  intros g sc near z L H. unfold find_nearest in H. apply bind_ok in H. destruct H as (pts & P & H). injection H as <-.
  apply mapM_length in P. rewrite seq_length in P. pose proof (Bd pts (scan_position (gr_use_bary g) sc) (cf_search_size cf)) as B.
  assert (U : (to_int32 z < 2 ^ 31)%Z).
  { unfold to_int32, wrap32. cbv zeta. pose proof (Z.mod_pos_bound z (2 ^ 32) ltac:(lia)). destruct (Z.ltb_spec (z mod 2 ^ 32) (2 ^ 31)); lia. }
  destruct (0 <? to_int32 z)%Z; lia.
Qed.

Lemma spare_reach : forall m, reach_if cf few m -> spare m.
Proof.
  apply reach_if_inv.
  - intros m H. apply init_cases in H. destruct H as (s & f & -> & _ & ->). exact I.
  - intros l m m' F W H. unfold few in F. destruct l as [e| | |];
      try (destruct (plain_other cf _ _ _ H ltac:(discriminate)) as [E _]; unfold spare; rewrite E; exact W).
    inversion H as [| |s' l' D|]; subst. unfold spare in *. cbn [mp_sh mp_loop] in *.
    destruct D; match goal with P : lp_pc _ = _ |- _ => rename P into Pc; rewrite Pc in W end; cbn [lat lp_pc next_scan]; try exact I; try exact W.
    + rewrite Pc. exact I.
    + match goal with N : find_nearest _ _ _ _ _ = Ok near, G : the_graph _ _ = Ok g |- _ => apply near_few in N; [|destruct (the_graph_length _ _ _ G) as (Lg & _); rewrite Lg; exact F]; rename N into Nf end.
      unfold room. cbn [lc_rest lc_left]. lia.
    + match goal with R : lc_rest c = _ |- _ => rename R into Rs end. destruct W as (W1 & W2 & W3). rewrite Rs in *. cbn [List.length] in *.
      unfold room. cbn [lc_rest lc_left]. lia.
    + destruct W as (W1 & W2 & W3). unfold room. lia.
    + destruct (after_room (mp_loop m) c W) as (left & -> & Q). exact Q.
    + destruct (after_room (mp_loop m) c W) as (left & -> & Q). exact Q.
Qed.

(** The thread leaves a scan only when no candidate is left. *)
Lemma all_candidates : forall m m', reach_if cf few m -> step cf Loop m = Some (Ok m') -> lp_done (mp_loop m') <> lp_done (mp_loop m) ->
  lp_pc (mp_loop m) = LCount \/ exists c, lp_pc (mp_loop m) = LCand c /\ lc_rest c = [].
Proof.
  intros m m' R H N. pose proof (spare_reach m R) as W. apply step_cases in H. inversion H as [| |s' l' D|]; subst. unfold spare in W. cbn [mp_loop] in *.
  destruct D; match goal with P : lp_pc _ = _ |- _ => rename P into Pc; rewrite Pc in W end; try (contradiction N; reflexivity).
  - left. exact Pc.
  - right. exists c. split; [exact Pc|assumption].
  - destruct (after_room (mp_loop m) c W) as (left & E & _). rewrite E in N. contradiction N. reflexivity.
  - destruct (after_room (mp_loop m) c W) as (left & E & _). rewrite E in N. contradiction N. reflexivity.
Qed.
End Search_limit.

Theorem C104_search_limit_off : forall {T} {A : Arith T} (cf : config T) ip, search_bounded (en_search cf) ->
  int_range (ip_search_limit ip) -> (ip_search_limit ip <= 0)%Z ->
  forall m m', reach_if (with_ints cf ip) few m -> step (with_ints cf ip) Loop m = Some (Ok m') -> lp_done (mp_loop m') <> lp_done (mp_loop m) ->
  lp_pc (mp_loop m) = LCount \/ exists c, lp_pc (mp_loop m) = LCand c /\ lc_rest c = [].
Proof.
  intros T A cf ip B R N. apply (all_candidates (with_ints cf ip)); [exact B|].
  change (cf_search_limit (with_ints cf ip)) with (as_size (ip_search_limit ip)).
  destruct (Z.eq_dec (ip_search_limit ip) 0) as [Z0|Z0]; [left; rewrite Z0; reflexivity|right].
  rewrite as_size_neg; [|exact R|lia]. destruct R. lia.
Qed.
Print Assumptions C104_search_limit_off.

(** ** laser_max_beams *)
Theorem C104_negative_beams : forall {T} {A : Arith T} (cf : config T) ip, 
  int_range (ip_global_beams ip) -> int_range (ip_local_beams ip) ->
  forall pts : list (point T), (Z.of_nat (List.length pts) < 2 ^ 63)%Z -> forall r,
  ((ip_global_beams ip < 0)%Z -> beams_used (en_global (with_ints cf ip) r) pts = Z.of_nat (List.length pts)) /\
  ((ip_local_beams ip < 0)%Z -> beams_used (en_local (with_ints cf ip) r) pts = Z.of_nat (List.length pts)).
Proof.
  intros T A cf ip R1 R2 pts L r. unfold beams_used. cbn [en_global en_local with_ints with_beams k_beams]. split; intro N.
  - rewrite (as_size_neg _ R1 N). destruct R1. apply Z.min_r. lia.
  - rewrite (as_size_neg _ R2 N). destruct R2. apply Z.min_r. lia.
Qed.
Print Assumptions C104_negative_beams.

(** ** min_particles, max_particles: the constructor throws. *)
Theorem C104_negative_particles : forall {T} {A : Arith T} (cf : config T) ip, cf_filter cf <> None ->
  int_range (ip_min ip) -> int_range (ip_max ip) -> (ip_min ip < 0 \/ ip_max ip < 0)%Z -> node_start cf ip = Fault LibAbort.
Proof.
  intros T A cf ip F R1 R2 N. unfold node_start. cbn [cf_filter with_ints]. destruct (cf_filter cf) as [[[mn mx] mo]|]; [|contradiction F; reflexivity].
  cbn [option_map snd]. unfold vector_fits at 1 2 3.
  destruct (Z.leb_spec (as_size (ip_max ip)) (2 ^ 63 - 1)) as [B|B]; [|reflexivity]. cbn [bind].
  assert (M : (0 <= ip_max ip)%Z). { destruct (Z.lt_ge_cases (ip_max ip) 0) as [L|L]; [|exact L]. rewrite (as_size_neg _ R2 L) in B. destruct R2. lia. }
  unfold vector_fits. rewrite (as_size_neg (ip_min ip)) by (try exact R1; lia). destruct R1.
  destruct (Z.leb_spec (2 ^ 64 + ip_min ip) (2 ^ 63 - 1)) as [C|C]; [lia|reflexivity].
Qed.
Print Assumptions C104_negative_particles.

(** ** Witness *)
Definition ints (depth limit node_limit : Z) : int_params := mkInts depth limit node_limit 100 500 100 100.
Definition few_b (m : mapper b64) (l : label b64) : bool := (num_scans (mp_sh m) <? 2 ^ 31)%Z.
Definition closed_b (m : mapper b64) : bool := existsb (fun o => match o with ObConstraint ALoop _ => true | _ => false end) (sh_trace (mp_sh m)).
Definition optimized_b (m : mapper b64) : bool := existsb (fun o => match o with ObOptimize _ => true | _ => false end) (sh_trace (mp_sh m)).

Lemma few_sound : forall m l, few_b m l = true -> few m l.
Proof. intros m l H. apply Z.ltb_lt. exact H. Qed.
Lemma closed_sound : forall m, closed_b m = true -> exists c, In (ObConstraint ALoop c) (sh_trace (mp_sh m)).
Proof. intros m H. apply existsb_exists in H. destruct H as (o & I & H). destruct o; try discriminate H. destruct a; try discriminate H. exists c. exact I. Qed.
Lemma optimized_sound : forall m, optimized_b m = true -> exists n, In (ObOptimize n) (sh_trace (mp_sh m)).
Proof. intros m H. apply existsb_exists in H. destruct H as (o & I & H). destruct o; try discriminate H. exists n. exact I. Qed.

Definition at104 (lm : libm) (depth limit node_limit : Z) : config b64 := with_ints (cf11 lm) (ints depth limit node_limit).
Definition run104 : list (label b64) := start11 ++ loops 18.

(** The same run with rolling_depth 9 and -1. *)
Lemma nv_depth : forall lm : libm, exists m, run (A := BA (easy lm)) (at104 lm 9 1 1) run104 = Ok m /\ ~ no_closing (sh_trace (mp_sh m)).
Proof.
  intro lm. destruct (ends64_in (run (A := BA (easy lm)) (at104 lm 9 1 1) run104) closed_b) as (m & E & H); [vm_compute; reflexivity|].
  exists m. split; [exact E|]. apply closed_sound in H. destruct H as (c & H). intros (_ & N & _). exact (N c H).
Qed.
Lemma nv_depth_neg : forall lm : libm, exists m, reach_if (A := BA (easy lm)) (at104 lm (-1) 1 1) few m /\
  run (A := BA (easy lm)) (at104 lm (-1) 1 1) run104 = Ok m /\ num_scans (mp_sh m) = 11%Z.
Proof.
  intro lm. destruct (ends64_in (run (A := BA (easy lm)) (at104 lm (-1) 1 1) run104) (fun m => sizes m 11 10)) as (m & E & H); [vm_compute; reflexivity|].
  exists m. split; [apply (run_reach (easy lm) _ few_b) with (ls := run104); [exact few_sound|vm_compute; reflexivity|exact E]|].
  split; [exact E|]. apply andb_prop in H. destruct H as [H _]. apply Nat.eqb_eq in H. unfold num_scans. rewrite H. reflexivity.
Qed.
(** With optimization_node_limit 1 and -1. *)
Lemma nv_limit : forall lm : libm, exists m, run (A := BA (easy lm)) (at104 lm 9 1 1) run104 = Ok m /\ ~ no_optimization (sh_trace (mp_sh m)).
Proof.
  intro lm. destruct (ends64_in (run (A := BA (easy lm)) (at104 lm 9 1 1) run104) optimized_b) as (m & E & H); [vm_compute; reflexivity|].
  exists m. split; [exact E|]. apply optimized_sound in H. destruct H as (c & H). intro N. exact (N c H).
Qed.
Lemma nv_limit_neg : forall lm : libm, exists m c, reach_if (A := BA (easy lm)) (at104 lm 9 1 (-1)) unloaded m /\ In (ObConstraint ALoop c) (sh_trace (mp_sh m)).
Proof.
  intro lm. destruct (ends64_in (run (A := BA (easy lm)) (at104 lm 9 1 (-1)) run104) closed_b) as (m & E & H); [vm_compute; reflexivity|].
  apply closed_sound in H. destruct H as (c & H). exists m, c. split; [|exact H].
  apply (run_reach (easy lm) _ unloaded_b) with (ls := run104); [exact unloaded_sound|vm_compute; reflexivity|exact E].
Qed.
(** With global_search_limit 0. *)
Definition ls104 : list (label b64) := start11 ++ loops 14.
Definition moves104 (lm : libm) (m : mapper b64) : bool :=
  closed_b m && goes (step (A := BA (easy lm)) (at104 lm 9 0 1) Loop m) (fun m' => negb (lp_done (mp_loop m') =? lp_done (mp_loop m))%Z).
Lemma nv_search_run : forall lm : libm, ends64 (run (A := BA (easy lm)) (at104 lm 9 0 1) ls104) (moves104 lm) = true.
Proof. intro lm. vm_compute. reflexivity. Qed.
Lemma nv_search_ok : forall lm : libm, run_ok (easy lm) (at104 lm 9 0 1) few_b ls104 = true.
Proof. intro lm. vm_compute. reflexivity. Qed.
Lemma nv_search : forall lm : libm, exists m m', reach_if (A := BA (easy lm)) (at104 lm 9 0 1) few m /\
  step (A := BA (easy lm)) (at104 lm 9 0 1) Loop m = Some (Ok m') /\ lp_done (mp_loop m') <> lp_done (mp_loop m) /\
  exists c, In (ObConstraint ALoop c) (sh_trace (mp_sh m)).
Proof.
  intro lm. destruct (ends64_in _ _ (nv_search_run lm)) as (m & E & H). unfold moves104 in H. apply andb_prop in H. destruct H as [H H2].
  apply goes_in in H2. destruct H2 as (m' & S' & H2). exists m, m'.
  split; [apply (run_reach (easy lm) _ few_b) with (ls := ls104); [exact few_sound|apply nv_search_ok|exact E]|].
  split; [exact S'|]. split; [|apply closed_sound; exact H]. intro Q. rewrite Q, Z.eqb_refl in H2. discriminate H2.
Qed.

Example C104_nonvacuous : forall lm : libm,
  (exists m, run (A := BA (easy lm)) (at104 lm 9 1 1) run104 = Ok m /\ ~ no_closing (sh_trace (mp_sh m))) /\
  (exists m, reach_if (A := BA (easy lm)) (at104 lm (-1) 1 1) few m /\
     run (A := BA (easy lm)) (at104 lm (-1) 1 1) run104 = Ok m /\ num_scans (mp_sh m) = 11%Z) /\
  (exists m, run (A := BA (easy lm)) (at104 lm 9 1 1) run104 = Ok m /\ ~ no_optimization (sh_trace (mp_sh m))) /\
  (exists m c, reach_if (A := BA (easy lm)) (at104 lm 9 1 (-1)) unloaded m /\ In (ObConstraint ALoop c) (sh_trace (mp_sh m))) /\
  (exists m m', reach_if (A := BA (easy lm)) (at104 lm 9 0 1) few m /\
     step (A := BA (easy lm)) (at104 lm 9 0 1) Loop m = Some (Ok m') /\ lp_done (mp_loop m') <> lp_done (mp_loop m) /\
     exists c, In (ObConstraint ALoop c) (sh_trace (mp_sh m))).
Proof.
  intro lm. split; [apply nv_depth|]. split; [apply nv_depth_neg|]. split; [apply nv_limit|]. split; [apply nv_limit_neg|apply nv_search].
Qed.
