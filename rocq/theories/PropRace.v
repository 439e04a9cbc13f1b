(** Property C121: the positions findNearest searches are those of the scans. *)

From Coq Require Import ZArith Reals List Bool Lia String.
From Flocq Require Import Core BinarySingleNaN.
From Verif Require Import Outcome Arith TypesModel ScanModel MatcherModel ConstraintModel SolverModel GraphModel LaserModel MapperModel ScanRaceModel
  NdtProofs SolverProofs ScanProofs MapperSteps MapperInv1 MapperInv5 MapperWitness2 PropMapper3 SpecMapper SpecRace.
Import ListNotations.

Section Generic.
Context {T : Type} {A : Arith T}.

(** ** Node level: no step leaves a wrong cache, whatever was asked before *)

Lemma bary_recomputed (s : scan T) : fst (scan_get_bary (recomputed s)) = s_bary (scan_update s).
Proof. reflexivity. Qed.
Lemma dirty_fresh (s : scan T) : s_dirty s = true -> fresh s.
Proof. intros H. unfold fresh, scan_get_bary. rewrite H. reflexivity. Qed.
Lemma set_pose_fresh (s : scan T) (p : pose T) : fresh (scan_set_pose s p).
Proof. apply dirty_fresh. reflexivity. Qed.
Lemma set_points_fresh (s : scan T) (l : list (point T)) : fresh (scan_set_points s l).
Proof. apply dirty_fresh. reflexivity. Qed.
Lemma asked_fresh (s : scan T) : fresh s -> fresh (snd (scan_get_bary s)).
Proof.
  unfold fresh, scan_get_bary. cbn [fst snd]. destruct (s_dirty s) eqn:D; cbn [fst snd].
  - intros _. cbn [s_dirty scan_update]. reflexivity.
  - rewrite D. intros H. exact H.
Qed.

Definition heap_fresh (s : shared T) : Prop := Forall fresh (sh_heap s).

Lemma list_set_forall {X} (P : X -> Prop) : forall (l : list X) p v, Forall P l -> P v -> Forall P (list_set l p v).
Proof.
  induction l as [|x l IH]; intros p v F V; [destruct p; constructor|].
  inversion F as [|? ? Fx Fl]; subst. destruct p as [|p]; cbn; constructor; auto.
Qed.
Lemma put_fresh (s : shared T) p v : heap_fresh s -> fresh v -> heap_fresh (put s p v).
Proof. intros H V. unfold heap_fresh, put. cbn [sh_heap set_heap]. apply list_set_forall; assumption. Qed.
Lemma put_all_fresh : forall ps vs (s : shared T), heap_fresh s -> Forall fresh vs -> heap_fresh (put_all s ps vs).
Proof.
  unfold put_all. induction ps as [|p ps IH]; intros [|v vs] s H V; cbn [combine fold_left]; try assumption.
  inversion V as [|? ? V1 V2]; subst. apply IH; [apply put_fresh; assumption|exact V2].
Qed.
Lemma app_fresh (s : shared T) more : heap_fresh s -> Forall fresh more -> Forall fresh (sh_heap s ++ more).
Proof. intros H M. apply Forall_app. split; assumption. Qed.
Lemma loaded_fresh ub (file : list (bag_msg T)) : Forall fresh (gr_scans (graph_load ub file)).
Proof.
  unfold graph_load.
  assert (G : forall (l : list (bag_msg T)) (g : graph T), Forall fresh (gr_scans g) ->
    Forall fresh (gr_scans (fold_left (fun g m => match m with
      | BScan s => mkGraph (gr_use_bary g) (gr_scans g ++ [scan_of_msg s]) (gr_constraints g)
      | BConstraint c => mkGraph (gr_use_bary g) (gr_scans g) (gr_constraints g ++ [constraint_of_msg c]) end) l g))).
  { induction l as [|x l IH]; intros g H; [exact H|]. cbn [fold_left]. apply IH. destruct x as [s|c]; cbn [gr_scans]; [|exact H].
    apply Forall_app. split; [exact H|]. constructor; [|constructor]. apply dirty_fresh. reflexivity. }
  apply G. constructor.
Qed.
Lemma written_fresh ns (s : scan T) : fresh s -> fresh (write_back ns s).
Proof. intros H. unfold write_back. destruct (nodes_find ns (scan_key s)); [apply set_pose_fresh|exact H]. Qed.

Lemma graph_scans_fresh (s : shared T) scans : heap_fresh s -> graph_scans s = Ok scans -> Forall fresh scans.
Proof.
  intros H. unfold graph_scans. revert scans. induction (sh_scans s) as [|p ps IH]; intros scans E; cbn [mapM] in E.
  - injection E as <-. constructor.
  - apply bind_ok in E. destruct E as (sc & D & E). apply bind_ok in E. destruct E as (r & R & E). injection E as <-.
    constructor; [|apply IH; exact R]. apply deref_nth in D. unfold heap_fresh in H. rewrite Forall_forall in H. apply H. apply nth_error_In in D. exact D.
Qed.

Variable cf : config T.

Lemma step_fresh : forall l m m', heap_fresh (mp_sh m) -> step_tr cf m l m' -> heap_fresh (mp_sh m').
Proof.
  intros l m m' H D. destruct D as [e s' sp' Id D|s' sp' D|s' l' D|s' p' D]; cbn [mp_sh].
  - destruct D; try exact H.
    + unfold heap_fresh. cbn [sh_heap set_heap set_global]. apply app_fresh; [exact H|]. subst sc. constructor; [apply set_points_fresh|constructor].
    + unfold configure_begin. repeat match goal with |- context [if ?b then _ else _] => destruct b end; exact H.
  - destruct D; try exact H; try (apply put_fresh; [exact H|apply set_pose_fresh]); try (destruct upd; exact H).
    + apply (app_fresh (mp_sh m)); [exact H|]. constructor; [apply set_pose_fresh|constructor].
    + apply (app_fresh (mp_sh m)); [exact H|]. apply loaded_fresh.
  - destruct D; try exact H; try (apply put_fresh; [exact H|apply set_pose_fresh]).
    apply put_all_fresh; [exact H|].
    match goal with G : graph_scans _ = Ok _, O : optimize _ _ _ _ = Ok _ |- _ => pose proof (graph_scans_fresh _ _ H G) as F; destruct (optimize_inv _ _ _ _ _ _ _ O) as [(_ & _ & _ & ->)|(_ & r & _ & Q)] end; [constructor|].
    destruct Q as (_ & _ & ->). destruct b; [|exact F]. rewrite Forall_forall in F |- *. intros x I. apply in_map_iff in I. destruct I as (y & <- & I). apply written_fresh, F, I.
  - destruct D; exact H.
Qed.

Lemma caching_fresh : forall m, caching cf m -> heap_fresh (mp_sh m).
Proof.
  intros m C. induction C as [m E|l m m' C IH S|m p sc C IH N].
  - apply init_cases in E. destruct E as (s & f & -> & _ & ->). cbn [mp_sh]. destruct (cf_file cf) as [file|]; [|constructor].
    apply (app_fresh (mkShared [] [] [] false None None pose0 pose0 (nopp (nlit 1 2)) (cf_enable cf) true None [])); [constructor|apply loaded_fresh].
  - apply step_cases in S. exact (step_fresh l m m' IH S).
  - cbn [mp_sh]. apply put_fresh; [exact IH|]. apply asked_fresh. unfold heap_fresh in IH. rewrite Forall_forall in IH. apply IH. apply nth_error_In in N. exact N.
Qed.

Lemma position_recomputed ub (s : scan T) : fresh s -> scan_position ub s = scan_position ub (recomputed s).
Proof. intros H. unfold scan_position. destruct ub; [rewrite H; reflexivity|reflexivity]. Qed.

Lemma nearest_recomputed search (g : graph T) (s : scan T) dist limit : Forall fresh (gr_scans g) -> fresh s ->
  find_nearest search g s dist limit = find_nearest search (uncached g) (recomputed s) dist limit.
Proof.
  intros F H. unfold find_nearest. cbn [uncached gr_scans gr_use_bary]. rewrite map_length.
  rewrite (position_recomputed (gr_use_bary g) s H). cbv zeta. match goal with |- bind ?a _ = bind ?b _ => assert (E : a = b); [|rewrite E; reflexivity] end.
  apply mapM_ext. intros i _. unfold vec_get. rewrite nth_error_map.
  destruct (Z.of_nat i <? 0)%Z; [reflexivity|].
  destruct (nth_error (gr_scans g) (Z.to_nat (Z.of_nat i))) as [sc|] eqn:N; cbn [option_map]; [|reflexivity]. cbn [bind].
  rewrite (position_recomputed (gr_use_bary g) sc); [reflexivity|]. rewrite Forall_forall in F. apply F. apply nth_error_In in N. exact N.
Qed.

(** ** Object level *)

(** What a call in progress has promised. *)
Definition race_inv (r : racing T) : Prop :=
  match ra_set r, ra_get r with
  | None, RIdle => fresh (ra_scan r)
  | Some _, RIdle => s_dirty (ra_scan r) = true
  | None, RUpdate => True
  | None, RClear => s_bary (ra_scan r) = s_bary (scan_update (ra_scan r))
  | _, _ => False
  end.

Lemma serial_inv : forall r l r', serial r l r' -> race_inv r -> race_inv r'.
Proof.
  intros r l r' S. induction S as [|r a r1 l r' Q M S IH]; intros I; [exact I|]. apply IH. clear IH S.
  destruct r as [s st g]. destruct a as [p| | | |]; cbn in M.
  - destruct (Q eq_refl) as [E1 E2]. cbn in E1, E2. subst st g. injection M as <-. reflexivity.
  - destruct st as [p|]; [|discriminate M]. injection M as <-. destruct g; try contradiction I. cbn in I |- *. apply dirty_fresh. exact I.
  - destruct (Q eq_refl) as [E1 E2]. cbn in E1, E2. subst st g. injection M as <-. cbn in I |- *. destruct (s_dirty s); [exact Logic.I|exact I].
  - destruct g; try (destruct st; discriminate M). destruct st; [contradiction I|]. injection M as <-. reflexivity.
  - destruct g; try (destruct st; discriminate M). destruct st; [contradiction I|]. injection M as <-. cbn in I |- *.
    unfold fresh, scan_get_bary. cbn [s_dirty with_dirty fst]. exact I.
Qed.

End Generic.

(** C121: false as stated.  Whatever the scan, a getBarycenterPose that overlaps a
    setPose can leave it with the new pose, the old barycenter, and a flag that
    says it is up to date. *)
Definition overlap {T} (q : pose T) : list (micro T) := [MSetFlag q; MGetTest; MGetUpdate; MSetStore; MGetClear].

Lemma overlap_result {T} {A : Arith T} (s : scan T) (q : pose T) :
  micro_run (mkRacing s None RIdle) (overlap q) =
  Some (mkRacing (mkScan (s_id s) false q (fst (scan_get_bary (recomputed s))) (s_pts s)) None RIdle).
Proof. reflexivity. Qed.

(** The node gets there: the loop closure thread is about to move a scan of the
    graph without a mutex, the initial pose callback is inside findNearest. *)
Definition cf_bary (lm : libm) : config b64 :=
  mkConfig b64 (z64 1) (z64 1) 9 true (z64 4) 1 1 None (z64 1) (z64 1) true (z64 2) (z64 1) (z64 1) (Some chain11)
    eig64 search64 no_ceres64 10 (mat3_zero (A := BA lm)) (fun _ => matcher64) (fun _ => matcher64).
Definition race_schedule : list (label b64) := Deliver (beam64 [] 0 0) :: loops 9 ++ [Deliver (pose_ev64 half64 half64 0 0); Spin].
Definition racing_b (lm : libm) (m : mapper b64) : bool :=
  match sp_pc (mp_spin m), lp_pc (mp_loop m) with
  | SGraph _ _, LCorrect c _ _ corr _ =>
    existsb (Nat.eqb (lc_scan c)) (sh_scans (mp_sh m)) &&
    match nth_error (sh_heap (mp_sh m)) (lc_scan c) with
    | Some sc => differ (px (scan_position (A := BA (easy lm)) true (recomputed (A := BA (easy lm)) (scan_set_pose sc (add_correction (A := BA (easy lm)) (s_pose sc) corr)))))
                        (px (scan_position (A := BA (easy lm)) true (recomputed (A := BA (easy lm)) sc)))
    | None => false
    end
  | _, _ => false
  end.

Theorem C121_search_positions_refuted : forall lm : libm, let A := BA (easy lm) in
  exists cf m e odom c i cand corr cov sc, reachable (A := A) cf m /\ cf_use_bary cf = true /\
  sp_pc (mp_spin m) = SGraph e odom /\ lp_pc (mp_loop m) = LCorrect c i cand corr cov /\
  In (lc_scan c) (sh_scans (mp_sh m)) /\ nth_error (sh_heap (mp_sh m)) (lc_scan c) = Some sc /\
  (* whatever is in the cache of that scan *)
  forall sc', s_id sc' = s_id sc -> s_pose sc' = s_pose sc -> s_pts sc' = s_pts sc ->
  let q := add_correction (A := A) (s_pose sc) corr in
  exists l r, micro_run (A := A) (mkRacing sc' None RIdle) l = Some r /\ quiet r /\ s_pose (ra_scan r) = q /\ s_pts (ra_scan r) = s_pts sc /\
    scan_position (A := A) true (ra_scan r) = scan_position (A := A) true (recomputed (A := A) sc) /\
    scan_position (A := A) true (ra_scan r) <> scan_position (A := A) true (recomputed (A := A) (ra_scan r)).
Proof.
  intros lm A. destruct (ends64_in (run (A := BA (easy lm)) (cf_bary lm) race_schedule) (racing_b lm)) as (m & E & H); [vm_compute; reflexivity|].
  unfold racing_b in H. destruct (sp_pc (mp_spin m)) as [| | | | | | | | | | | |e odom| | | | | | |] eqn:P; try discriminate H.
  destruct (lp_pc (mp_loop m)) as [| | | | | | | | |c i cand corr cov| | | | | | |] eqn:Q; try discriminate H.
  apply andb_prop in H. destruct H as [H1 H2]. destruct (nth_error (sh_heap (mp_sh m)) (lc_scan c)) as [sc|] eqn:N; [|discriminate H2].
  exists (cf_bary lm), m, e, odom, c, i, cand, corr, cov, sc. split; [exists race_schedule; exact E|]. split; [reflexivity|].
  split; [exact P|]. split; [exact Q|].
  split; [apply existsb_exists in H1; destruct H1 as (p & I & Ep); apply Nat.eqb_eq in Ep; subst p; exact I|]. split; [exact N|].
  intros sc' E1 E2 E3 q. eexists (overlap q), _. split; [apply overlap_result|]. split; [split; reflexivity|]. split; [reflexivity|].
  split; [exact E3|].
  assert (R : recomputed (A := A) sc' = recomputed (A := A) sc) by (unfold recomputed; rewrite E1, E2, E3; reflexivity).
  split; [cbn [ra_scan]; rewrite R; reflexivity|]. cbn [ra_scan]. rewrite R. intros K. apply (f_equal px) in K.
  apply differ_sound in H2. apply H2. clear H2. symmetry. etransitivity; [|etransitivity; [exact K|]]; [reflexivity|].
  unfold recomputed, scan_set_pose. cbn [s_id s_pose s_pts]. rewrite E1, E3. reflexivity.
Qed.
Print Assumptions C121_search_positions_refuted.

(** What holds: without overlapping calls every history of calls leaves the cache
    right; and every execution of the node, in which any scan may be asked for its
    barycenter between two steps, searches the positions of the scans. *)
Theorem C121_serial_partial : forall {T} {A : Arith T} (s : scan T) l r, fresh s -> serial (mkRacing s None RIdle) l r -> quiet r -> fresh (ra_scan r).
Proof.
  intros T A s l r F S [Q1 Q2]. pose proof (serial_inv _ _ _ S F) as I. unfold race_inv in I. rewrite Q1, Q2 in I. exact I.
Qed.
Print Assumptions C121_serial_partial.

Theorem C121_node_partial : forall {T} {A : Arith T} (cf : config T) m, caching cf m ->
  Forall fresh (sh_heap (mp_sh m)) /\
  forall g s dist limit, the_graph cf (mp_sh m) = Ok g -> fresh s ->
    find_nearest (en_search cf) g s dist limit = find_nearest (en_search cf) (uncached g) (recomputed s) dist limit.
Proof.
  intros T A cf m C. pose proof (caching_fresh cf m C) as H. split; [exact H|]. intros g s dist limit G F.
  apply nearest_recomputed; [|exact F]. unfold the_graph in G. apply bind_ok in G. destruct G as (scans & G & E). injection E as <-.
  exact (graph_scans_fresh _ _ H G).
Qed.
Print Assumptions C121_node_partial.

(** A scan that was asked, moved and asked again; a node with a cached barycenter. *)
Example C121_nonvacuous : forall {T} {A : Arith T} (s : scan T) (q : pose T), s_dirty s = true ->
  exists r, serial (mkRacing s None RIdle) [MGetTest; MGetUpdate; MGetClear; MSetFlag q; MSetStore; MGetTest; MGetUpdate; MGetClear] r /\ quiet r /\
  s_pose (ra_scan r) = q /\ s_dirty (ra_scan r) = false.
Proof.
  intros T A s q D. eexists. split.
  - repeat (eapply serial_step; [intro Q0; first [discriminate Q0|split; reflexivity]|cbn; rewrite ?D; reflexivity|]). apply serial_nil.
  - repeat split.
Qed.

Example C121_node_nonvacuous : forall lm : libm, exists m, caching (A := BA (easy lm)) (cf_bary lm) m /\
  exists sc, In sc (sh_heap (mp_sh m)) /\ s_dirty sc = false.
Proof.
  intros lm. destruct (ends64_in (run (A := BA (easy lm)) (cf_bary lm) []) (fun m => negb (Nat.eqb (List.length (sh_heap (mp_sh m))) 0))) as (m & E & H); [vm_compute; reflexivity|].
  destruct (sh_heap (mp_sh m)) as [|sc l] eqn:Hp; [discriminate H|].
  unfold run in E. apply bind_ok in E. destruct E as (m0 & E & E0). injection E0 as ->.
  eexists. split.
  - eapply (caching_ask (A := BA (easy lm)) _ m 0 sc); [apply caching_init; exact E|]. rewrite Hp. reflexivity.
  - cbn [mp_sh]. exists (snd (scan_get_bary (A := BA (easy lm)) sc)). split.
    + unfold put. cbn [sh_heap set_heap]. rewrite Hp. left. reflexivity.
    + unfold scan_get_bary. cbn [snd]. destruct (s_dirty sc) eqn:D; [reflexivity|exact D].
Qed.
