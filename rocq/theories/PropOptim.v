(** Properties C138 and C139: the optimizer and the agreement of the map with
    its constraints (exact arithmetic). *)

From Coq Require Import ZArith Reals List Bool Lia Lra.
From Verif Require Import Outcome Arith TypesModel ScanModel ConstraintModel SolverModel GraphModel
  MapperModel SpecMapper SpecMapper4 SpecGraph
  SpecPose SpecLaser SpecSolver SpecOptim ConstraintProofs SolverProofs OptimProofs OptimNode MapperInv3 MapperWitness2 PropMapper3.
Import ListNotations.
Local Open Scope R_scope.

Theorem C138_never_worse : forall (ceres : ceres_oracle R) calls cs scans st b st' scans',
  keeps_nodes ceres -> never_worse ceres -> NoDup (int_ids scans) ->
  growing [] [] (calls ++ [(cs, scans)]) -> optimize_run ceres solver_new calls = Ok st ->
  optimize ceres st cs scans = Ok (b, st', scans') ->
  map_error cs scans' <= map_error cs scans.
Proof.
  intros ceres calls cs scans st b st' scans' KN NW ND G R O.
  eapply optimize_cost; eauto.
  eapply SolverProofs.run_ok; [|exact G|exact R]. split; [cbn; lia|constructor].
Qed.
Print Assumptions C138_never_worse.

(** The same within the node: whenever the loop closure thread optimizes, in any
    execution in which no map is loaded, the graph of the node after the step is
    the one before with poses that agree with its constraints at least as well. *)
Theorem C138_in_the_node : forall (cf : config R), (0 <= cf_depth cf)%Z -> search_in_range (en_search cf) ->
  keeps_nodes (en_ceres cf) -> never_worse (en_ceres cf) -> numbered_start cf ->
  forall m m', reach_if cf unloaded m -> (num_scans (mp_sh m) < 2 ^ 31)%Z -> optimizing m ->
  step cf Loop m = Some (Ok m') ->
  exists g g', the_graph cf (mp_sh m) = Ok g /\ the_graph cf (mp_sh m') = Ok g' /\
    gr_constraints g' = gr_constraints g /\
    map_error (gr_constraints g') (gr_scans g') <= map_error (gr_constraints g) (gr_scans g).
Proof.
  intros cf D S KN NW start m m' R B O St.
  destruct (optimizer_input cf D S start m m' R B O St) as (g & b & sv & scans' & G & ND & OK & Op & G').
  exists g. eexists. split; [exact G|]. split; [exact G'|]. cbn [gr_constraints gr_scans]. split; [reflexivity|].
  exact (optimize_cost _ _ _ _ KN NW ND OK _ _ _ Op).
Qed.
Print Assumptions C138_in_the_node.

(** What the node optimizes, in every arithmetic: every constraint of the graph,
    exactly once, between its two scans; and the graph afterwards has the scans
    the optimizer returned. *)
Theorem C55_in_the_node : forall {T} {A : Arith T} (cf : config T), (0 <= cf_depth cf)%Z -> search_in_range (en_search cf) ->
  numbered_start cf ->
  forall m m', reach_if cf unloaded m -> (num_scans (mp_sh m) < 2 ^ 31)%Z -> optimizing m ->
  step cf Loop m = Some (Ok m') ->
  exists g b sv scans', the_graph cf (mp_sh m) = Ok g /\
    (forall p, prepare (lp_solver (mp_loop m)) (gr_constraints g) (gr_scans g) = Ok p ->
       Forall2 (block_for (int_ids (gr_scans g))) (gr_constraints g) (sv_blocks p)) /\
    optimize (en_ceres cf) (lp_solver (mp_loop m)) (gr_constraints g) (gr_scans g) = Ok (b, sv, scans') /\
    the_graph cf (mp_sh m') = Ok (mkGraph (gr_use_bary g) scans' (gr_constraints g)).
Proof.
  intros T A cf D S start m m' R B O St.
  destruct (optimizer_input cf D S start m m' R B O St) as (g & b & sv & scans' & G & ND & OK & Op & G').
  exists g, b, sv, scans'. split; [exact G|]. split; [|split; [exact Op|exact G']].
  intros p P. apply (prepare_ok _ _ _ _ OK P).
Qed.
Print Assumptions C55_in_the_node.

(** The history of C97: eleven scans, a loop closure, the optimizer about to run. *)
Example C55_in_the_node_nonvacuous : forall lm : libm, numbered_start (A := BA (easy lm)) (cf11 lm) /\
  exists m m', reach_if (A := BA (easy lm)) (cf11 lm) unloaded m /\ (num_scans (mp_sh m) < 2 ^ 31)%Z /\ optimizing m /\
    step (A := BA (easy lm)) (cf11 lm) Loop m = Some (Ok m').
Proof.
  intro lm. destruct (C97_nonvacuous lm) as (H1 & H2 & m & R & O & N).
  split; [apply good_numbered; exact H2|].
  destruct (C97_optimizer_safe_partial (A := BA (easy lm)) (cf11 lm) ltac:(discriminate) search64_in_range H1 H2 m R) as (m' & St);
    [rewrite N; reflexivity|exact O|].
  exists m, m'. split; [|split; [rewrite N; reflexivity|split; [exact O|exact St]]].
  eapply reach_if_mono; [|exact R]. intros x l (U & _). exact U.
Qed.

Theorem C139_consistent_map_stays : forall (ceres : ceres_oracle R) calls (g : graph R) st b st' scans',
  keeps_constant ceres -> keeps_nodes ceres -> never_worse ceres -> NoDup (int_ids (gr_scans g)) ->
  growing [] [] (calls ++ [(gr_constraints g, gr_scans g)]) -> optimize_run ceres solver_new calls = Ok st ->
  optimize ceres st (gr_constraints g) (gr_scans g) = Ok (b, st', scans') ->
  agrees (gr_constraints g) (gr_scans g) ->
  forall i s s', linked g (Z.of_nat i) ->
  nth_error (gr_scans g) i = Some s -> nth_error scans' i = Some s' ->
  same_pose (s_pose s') (s_pose s).
Proof.
  intros ceres calls g st b st' scans' KC KN NW ND G R O A i s s' L Hs Hs'.
  assert (W := C138_never_worse _ _ _ _ _ _ _ _ KN NW ND G R O).
  rewrite (agrees_error _ _ A) in W.
  assert (OK : solver_ok (gr_constraints g) (int_ids (gr_scans g)) st).
  { eapply SolverProofs.run_ok; [|exact G|exact R]. split; [cbn; lia|constructor]. }
  assert (P : Forall (fun c => pos_def3 (c_information c)) (gr_constraints g)).
  { eapply Forall_impl; [|exact A]. intros c (H & _). exact H. }
  apply (error_agrees _ _ P) in W.
  assert (LL : List.length scans' = List.length (gr_scans g)).
  { destruct (optimize_keeps _ _ _ _ _ _ _ O) as (E & _). rewrite <- (map_length s_id scans'), E. apply map_length. }
  eapply (linked_stay g scans' LL); [|exact A|exact W| |exact L|rewrite Nat2Z.id; exact Hs|rewrite Nat2Z.id; exact Hs'].
  - destruct (optimize_inv _ _ _ _ _ _ _ O) as [(E & _)|(_ & p & Pp & _)].
    + rewrite E in Hs. destruct i; discriminate.
    + destruct (prepare_ok _ _ _ _ OK Pp) as (Q & _). apply Forall_forall. intros c Hc.
      destruct (Forall2_in_l _ _ _ _ Q Hc) as (bl & _ & (_ & _ & H1 & H2 & H3 & H4)).
      assert (H5 : (Z.to_nat (c_begin c) < List.length (int_ids (gr_scans g)))%nat) by (apply nth_error_Some; congruence).
      assert (H6 : (Z.to_nat (c_end c) < List.length (int_ids (gr_scans g)))%nat) by (apply nth_error_Some; congruence).
      unfold int_ids in H5, H6. rewrite map_length in H5, H6. lia.
  - intros a a' Ha Ha'. destruct b.
    + destruct (optimize_success _ _ _ _ _ _ KC KN ND O) as (p & _ & _ & _ & F).
      destruct (F a Ha) as (a2 & H2 & E). rewrite Ha' in H2. injection H2 as <-. exact E.
    + rewrite (optimize_failure _ _ _ _ _ _ O) in Ha'. congruence.
Qed.
Print Assumptions C139_consistent_map_stays.

(** An optimizer that tries one value for the free nodes and keeps the better. *)
Definition move (const : list Z) (w : vec3 R) (ns : nodes R) : nodes R :=
  map (fun kv => (fst kv, if existsb (Z.eqb (fst kv)) const then snd kv else w)) ns.
Definition attempt (w : vec3 R) : ceres_oracle R := fun blocks const ns =>
  (true, if Rle_dec (problem_cost blocks (move const w ns)) (problem_cost blocks ns) then move const w ns else ns).

Lemma move_find : forall const w ns k, nodes_find (move const w ns) k =
  option_map (fun v => if existsb (Z.eqb k) const then v else w) (nodes_find ns k).
Proof.
  induction ns as [|(j, v) ns IH]; intro k; [reflexivity|]. cbn. destruct (Z.eqb_spec j k) as [->|_]; [reflexivity|apply IH].
Qed.
Lemma try_constant : forall w, keeps_constant (attempt w).
Proof.
  intros w blocks const ns k H. unfold attempt. cbn [snd]. destruct (Rle_dec _ _); [|reflexivity].
  rewrite move_find. destruct (existsb (Z.eqb k) const) eqn:E; [destruct (nodes_find ns k); reflexivity|].
  exfalso. rewrite <- not_true_iff_false, existsb_exists in E. apply E. exists k. split; [exact H|apply Z.eqb_refl].
Qed.
Lemma try_nodes : forall w, keeps_nodes (attempt w).
Proof.
  intros w blocks const ns k H. unfold attempt. cbn [snd]. destruct (Rle_dec _ _); [|exact H].
  rewrite move_find. destruct (nodes_find ns k); [discriminate|contradiction].
Qed.
Lemma try_never_worse : forall w, never_worse (attempt w).
Proof. intros w blocks const ns _. unfold attempt. cbn [snd]. destruct (Rle_dec _ _); [assumption|lra]. Qed.

Lemma id_pd : pos_def3 (mkMat3 1 0 0 0 1 0 0 0 1).
Proof.
  split; [repeat split|]. intros (x, y, z) H. unfold quad3. cbn.
  assert (N : sqnorm3 (mkVec3 x y z) <> 0) by (intro E; apply sqnorm3_zero in E; contradiction).
  pose proof (sqnorm3_nonneg (mkVec3 x y z)) as P. unfold sqnorm3 in N, P. cbn in N, P. lra.
Qed.

(** Two scans, a constraint that says they are one apart. *)
Lemma one_agrees : agrees map1_edges map1_scans.
Proof.
  repeat constructor; [intros r H; apply (proj2 id_pd r H)|..]; cbn in *; injection H as <-; injection H0 as <-;
    unfold compose, act; cbn; rewrite ?cos_0, ?sin_0; try ring.
  exists 0%Z. ring.
Qed.
Lemma two_disagrees : 0 < map_error map1_edges map2_scans.
Proof.
  destruct (Rlt_le_dec 0 (map_error map1_edges map2_scans)) as [H|H]; [exact H|]. exfalso.
  apply error_agrees in H; [|repeat constructor; intros r N; apply (proj2 id_pd r N)].
  inversion H as [|? ? (_ & M) _]; subst. destruct (M _ _ eq_refl eq_refl) as (E & _).
  unfold compose, act in E. cbn in E. rewrite cos_0, sin_0 in E. lra.
Qed.

(** Two scans two apart: the optimizer above makes the map better. *)
Example C138_nonvacuous : exists st scans',
  keeps_nodes (attempt (mkVec3 1 0 0)) /\ never_worse (attempt (mkVec3 1 0 0)) /\
  NoDup (int_ids map2_scans) /\ growing [] [] ([] ++ [(map1_edges, map2_scans)]) /\
  optimize (attempt (mkVec3 1 0 0)) solver_new map1_edges map2_scans = Ok (true, st, scans') /\
  map_error map1_edges scans' < map_error map1_edges map2_scans.
Proof.
  set (blocks := [mkBlock (mkVec3 1 0 0) (llt_L (mkMat3 1 0 0 0 1 0 0 0 1)) 0%Z 1%Z] : list (block R)).
  set (ns1 := [(0%Z, mkVec3 0 0 0); (1%Z, mkVec3 1 0 0)]).
  set (ns2 := [(0%Z, mkVec3 0 0 0); (1%Z, mkVec3 2 0 0)]).
  exists (mkSolver blocks [0%Z] ns1 1), map1_scans.
  split; [apply try_nodes|]. split; [apply try_never_worse|].
  split; [cbn; repeat constructor; cbn; intuition discriminate|].
  split; [cbn; split; [eexists; reflexivity|split; [eexists; reflexivity|exact I]]|].
  assert (F : forall x, Forall2 (block_for (int_ids [demo_scan 0 0; demo_scan 1 x])) map1_edges blocks).
  { intro x. constructor; [|constructor]. repeat split; cbn; lia. }
  assert (C1 : problem_cost blocks ns1 = 0).
  { rewrite (cost_is_error ns1 map1_scans map1_edges blocks); [apply agrees_error, one_agrees| |apply F].
    intros [|[|i]] s H; cbn in H; try (injection H as <-; reflexivity). destruct i; discriminate. }
  assert (C2 : problem_cost blocks ns2 = map_error map1_edges map2_scans).
  { apply cost_is_error; [|apply F].
    intros [|[|i]] s H; cbn in H; try (injection H as <-; reflexivity). destruct i; discriminate. }
  split; [|rewrite (agrees_error _ _ one_agrees); apply two_disagrees].
  assert (T : attempt (mkVec3 1 0 0) blocks [0%Z] ns2 = (true, ns1)).
  { unfold attempt. change (move [0%Z] (mkVec3 1 0 0) ns2) with ns1.
    destruct (Rle_dec (problem_cost blocks ns1) (problem_cost blocks ns2)) as [_|N]; [reflexivity|].
    exfalso. apply N. rewrite C1, C2. left. exact two_disagrees. }
  assert (P : prepare solver_new map1_edges map2_scans = Ok (mkSolver blocks [0%Z] ns2 1)) by reflexivity.
  transitivity (bind (prepare solver_new map1_edges map2_scans) (fun p =>
    let '(usable, ns) := attempt (mkVec3 1 0 0) (sv_blocks p) (sv_const p) (sv_nodes p) in
    let st' := mkSolver (sv_blocks p) (sv_const p) ns (sv_num p) in
    if usable then Ok (true, st', map (write_back ns) map2_scans) else Ok (false, st', map2_scans))); [reflexivity|].
  rewrite P. cbn [bind sv_blocks sv_const sv_nodes sv_num]. rewrite T. reflexivity.
Qed.

(** A consistent map of two scans, given to the same optimizer. *)
Example C139_nonvacuous : exists st scans',
  keeps_constant (attempt (mkVec3 5 0 0)) /\ keeps_nodes (attempt (mkVec3 5 0 0)) /\ never_worse (attempt (mkVec3 5 0 0)) /\
  growing [] [] ([] ++ [(map1_edges, map1_scans)]) /\ NoDup (int_ids map1_scans) /\
  optimize (attempt (mkVec3 5 0 0)) solver_new map1_edges map1_scans = Ok (true, st, scans') /\
  agrees map1_edges map1_scans /\ linked (mkGraph true map1_scans map1_edges) 1%Z.
Proof.
  do 2 eexists. split; [apply try_constant|]. split; [apply try_nodes|]. split; [apply try_never_worse|].
  split; [cbn; split; [eexists; reflexivity|split; [eexists; reflexivity|exact I]]|].
  split; [exact demo_nodup|]. split; [reflexivity|]. split; [exact one_agrees|].
  apply (linked_forward (mkGraph true map1_scans map1_edges) (demo_edge 0 1 1)); [left; reflexivity|apply linked_first].
Qed.
