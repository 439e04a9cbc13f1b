(** Proofs about the graph. *)

From Coq Require Import ZArith Reals List Bool Lia Lra Permutation Sorted.
From Flocq Require Import Core.
From Verif Require Import Outcome Arith TypesModel ScanModel ConstraintModel GraphModel SpecPose SpecStats SpecScan SpecGraph
  ScanProofs NdtProofs MatcherProofs MatcherB64 SolverProofs RTactics.
Import ListNotations.

Section G.
Context {T : Type} {A : Arith T}.

(** * C33 *)
Lemma wrap_to_int64 : forall z, (0 <= z < 2 ^ 64)%Z -> wrap64 (to_int64 z) = z.
Proof.
  intros z H. unfold to_int64, wrap64. rewrite (Z.mod_small z) by exact H.
  destruct (Z.ltb_spec z (2 ^ 63)).
  - apply Z.mod_small. lia.
  - replace (z - 2 ^ 64)%Z with (z + (-1) * 2 ^ 64)%Z by ring. rewrite Z_mod_plus_full. apply Z.mod_small, H.
Qed.

Lemma graph_load_fold : forall (file : list (bag_msg T)) g,
  fold_left (fun g m =>
    match m with
    | BScan s => mkGraph (gr_use_bary g) (gr_scans g ++ [scan_of_msg s]) (gr_constraints g)
    | BConstraint c => mkGraph (gr_use_bary g) (gr_scans g) (gr_constraints g ++ [constraint_of_msg c])
    end) file g =
  mkGraph (gr_use_bary g) (gr_scans g ++ map scan_of_msg (scans_of file))
    (gr_constraints g ++ map constraint_of_msg (constraints_of file)).
Proof.
  induction file as [|[m|m] file IH]; intro g; cbn [fold_left scans_of constraints_of map].
  - rewrite !app_nil_r. destruct g; reflexivity.
  - rewrite IH. cbn. rewrite <- app_assoc. reflexivity.
  - rewrite IH. cbn. rewrite <- app_assoc. reflexivity.
Qed.

Lemma graph_load_eq : forall ub (file : list (bag_msg T)),
  graph_load ub file = mkGraph ub (map scan_of_msg (scans_of file)) (map constraint_of_msg (constraints_of file)).
Proof. intros ub file. unfold graph_load. rewrite graph_load_fold. reflexivity. Qed.

Lemma save_scans : forall g : graph T, scans_of (graph_save g) = map scan_to_msg (gr_scans g).
Proof.
  intros g. unfold graph_save.
  assert (E : forall l : list (constraint T), scans_of (map (fun c => BConstraint (constraint_to_msg c)) l) = []) by (induction l; auto).
  induction (gr_scans g) as [|s l IH]; cbn; [apply E|]. f_equal. exact IH.
Qed.
Lemma save_constraints : forall g : graph T, constraints_of (graph_save g) = map constraint_to_msg (gr_constraints g).
Proof.
  intros g. unfold graph_save. induction (gr_scans g) as [|s l IH]; cbn; [|exact IH].
  induction (gr_constraints g) as [|c l IH]; cbn; [reflexivity|]. f_equal. exact IH.
Qed.

Lemma scan_roundtrip : forall s : scan T, same_scan (scan_of_msg (scan_to_msg s)) s.
Proof.
  intros s. unfold same_scan, scan_of_msg, scan_to_msg. cbn. split; [reflexivity|]. split; [destruct (s_pose s); reflexivity|].
  rewrite map_map. rewrite <- (map_id (s_pts s)) at 2. apply map_ext. intros []; reflexivity.
Qed.
Lemma constraint_roundtrip : forall c : constraint T,
  (0 <= c_begin c < 2 ^ 64)%Z /\ (0 <= c_end c < 2 ^ 64)%Z ->
  constraint_of_msg (constraint_to_msg c) = c.
Proof.
  intros [b e [] [] sw] (H1 & H2). unfold constraint_of_msg, constraint_to_msg. cbn in *.
  rewrite !wrap_to_int64 by assumption. reflexivity.
Qed.

Theorem save_load : forall ub (g : graph T) file,
  fits64 g -> same_topics file (graph_save g) ->
  Forall2 same_scan (gr_scans (graph_load ub file)) (gr_scans g) /\
  gr_constraints (graph_load ub file) = gr_constraints g.
Proof.
  intros ub g file F (E1 & E2). rewrite graph_load_eq. cbn. rewrite E1, E2, save_scans, save_constraints, !map_map. split.
  - induction (gr_scans g); constructor; [apply scan_roundtrip|assumption].
  - rewrite <- (map_id (gr_constraints g)) at 2. apply map_ext_in. intros c Hc.
    apply constraint_roundtrip. unfold fits64 in F. rewrite Forall_forall in F. apply F, Hc.
Qed.

(** Barycenters are recomputed from the loaded pose and points. *)
Lemma loaded_bary : forall (s : scan T), s_bary (scan_update (scan_of_msg (scan_to_msg s))) = s_bary (scan_update s).
Proof. intros s. apply scan_update_bary_ext; apply (scan_roundtrip s). Qed.

(** * C35 *)
Definition limit_of (g : graph T) (limit : Z) : nat :=
  if (0 <? limit)%Z then Z.to_nat limit else length (gr_scans g).

Lemma positions_ok : forall (g : graph T) n, n <= length (gr_scans g) ->
  mapM (fun i => bind (vec_get (gr_scans g) (Z.of_nat i)) (fun sc => Ok (scan_position (gr_use_bary g) sc))) (seq 0 n) =
  Ok (map (scan_position (gr_use_bary g)) (firstn n (gr_scans g))).
Proof.
  intros g n. induction n as [|n IH]; intro H; [reflexivity|].
  rewrite seq_S, mapM_app, IH by lia. cbn [bind plus mapM].
  destruct (nth_error (gr_scans g) n) as [s|] eqn:E.
  - rewrite (nth_vec_get (gr_scans g) (Z.of_nat n) s); [|lia|rewrite Nat2Z.id; exact E]. cbn [bind].
    f_equal.
    assert (F : firstn (S n) (gr_scans g) = firstn n (gr_scans g) ++ [s]).
    { clear IH H. revert n E. induction (gr_scans g) as [|x l IHl]; intros n E; [destruct n; discriminate|].
      destruct n; cbn in E; [injection E as ->; reflexivity|]. change (firstn (S (S n)) (x :: l)) with (x :: firstn (S n) l). rewrite (IHl _ E). reflexivity. }
    rewrite F, map_app. reflexivity.
  - apply nth_error_None in E. lia.
Qed.

Lemma positions_bad : forall (g : graph T) n, length (gr_scans g) < n ->
  mapM (fun i => bind (vec_get (gr_scans g) (Z.of_nat i)) (fun sc => Ok (scan_position (gr_use_bary g) sc))) (seq 0 n) =
  Fault OutOfBounds.
Proof.
  intros g n H. replace n with (length (gr_scans g) + S (n - S (length (gr_scans g)))) by lia.
  rewrite seq_app, mapM_app, positions_ok by lia. cbn [bind plus seq mapM].
  unfold vec_get at 1. destruct (Z.ltb_spec (Z.of_nat (length (gr_scans g))) 0); [lia|].
  rewrite Nat2Z.id. rewrite (proj2 (nth_error_None (gr_scans g) (length (gr_scans g)))) by lia. reflexivity.
Qed.

Theorem find_nearest_defined : forall search (g : graph T) s dist limit,
  find_nearest search g s dist limit =
  (if (Z.of_nat (length (gr_scans g)) <? limit)%Z then Fault OutOfBounds
   else Ok (search (map (scan_position (gr_use_bary g)) (firstn (limit_of g limit) (gr_scans g)))
              (scan_position (gr_use_bary g) s) dist)).
Proof.
  intros search g s dist limit. unfold find_nearest, limit_of.
  destruct (Z.ltb_spec (Z.of_nat (length (gr_scans g))) limit) as [H|H].
  - destruct (Z.ltb_spec 0 limit); [|lia]. rewrite positions_bad by lia. reflexivity.
  - destruct (Z.ltb_spec 0 limit).
    + rewrite positions_ok by lia. reflexivity.
    + rewrite positions_ok by lia. reflexivity.
Qed.

(** * C36 *)
Lemma edge_marker_inv : forall scans id (c : constraint T) m, edge_marker scans id c = Ok m ->
  exists b e, (0 <= c_begin c)%Z /\ nth_error scans (Z.to_nat (c_begin c)) = Some b /\
    (0 <= c_end c)%Z /\ nth_error scans (Z.to_nat (c_end c)) = Some e /\
    m = mkMarker NsEdges id (mkPoint nzero nzero)
      [mkPoint (pox (s_pose b)) (poy (s_pose b)); mkPoint (pox (s_pose e)) (poy (s_pose e))]
      (if c_switchable c then Green else Blue).
Proof.
  intros scans id c m H. unfold edge_marker in H.
  destruct (vec_get scans (c_begin c)) as [b|] eqn:Eb; [|discriminate]. cbn [bind] in H.
  destruct (vec_get scans (c_end c)) as [e|] eqn:Ee; [|discriminate]. cbn [bind] in H.
  apply vec_get_nth in Eb, Ee. injection H as <-. exists b, e. intuition.
Qed.

Lemma edges_fold : forall scans (cs : list (constraint T)) acc id r,
  foldM (fun (acc : list (marker T) * Z) c =>
          bind (edge_marker scans (snd acc) c) (fun m => Ok (fst acc ++ [m], (snd acc + 1)%Z))) (acc, id) cs = Ok r ->
  exists ms, fst r = acc ++ ms /\ Forall2 (shows_edge scans) ms cs /\
    map mk_id ms = map (fun k => (id + Z.of_nat k)%Z) (seq 0 (length cs)).
Proof.
  induction cs as [|c cs IH]; intros acc id r H; cbn [foldM] in H.
  - injection H as <-. exists []. rewrite app_nil_r. repeat split. constructor.
  - cbn [fst snd] in H. destruct (edge_marker scans id c) as [m|] eqn:E; [|discriminate]. cbn [bind] in H.
    destruct (IH _ _ _ H) as (ms & E1 & E2 & E3). exists (m :: ms).
    rewrite E1, <- app_assoc. split; [reflexivity|].
    destruct (edge_marker_inv _ _ _ _ E) as (b & e & _ & B & _ & F & ->). split.
    + constructor; [|exact E2]. exists b, e. repeat split; auto; cbn; destruct (c_switchable c); congruence.
    + cbn [map mk_id length seq]. f_equal; [lia|]. rewrite E3, <- seq_shift, map_map. apply map_ext. intro; lia.
Qed.

Theorem get_msg_shows : forall (g : graph T) old r, graph_get_msg g old = Ok r ->
  exists nodes edges, r = old ++ nodes ++ edges /\
    Forall2 shows_node nodes (gr_scans g) /\ Forall2 (shows_edge (gr_scans g)) edges (gr_constraints g) /\
    map mk_id edges = map Z.of_nat (seq 0 (length (gr_constraints g))).
Proof.
  intros g old r H. unfold graph_get_msg in H. apply bind_ok in H. destruct H as ((ms, k) & H & E). cbn in E. injection E as <-.
  apply edges_fold in H. destruct H as (es & E1 & E2 & E3).
  exists (map node_marker (gr_scans g)), es. rewrite app_assoc. split; [exact E1|].
  split; [|split; [exact E2|exact E3]].
  clear. induction (gr_scans g); constructor; [repeat split|assumption].
Qed.

Lemma edge_marker_defined : forall scans id (c : constraint T),
  (exists m, edge_marker scans id c = Ok m) <-> valid_constraint (length scans) c.
Proof.
  intros scans id c. unfold valid_constraint. split.
  - intros (m & H). destruct (edge_marker_inv _ _ _ _ H) as (b & e & B1 & B2 & E1 & E2 & _).
    assert (Z.to_nat (c_begin c) < length scans) by (apply nth_error_Some; congruence).
    assert (Z.to_nat (c_end c) < length scans) by (apply nth_error_Some; congruence). lia.
  - intros (B & E). destruct (vec_get_ok scans _ B) as (b & Hb & _). destruct (vec_get_ok scans _ E) as (e & He & _).
    unfold edge_marker. rewrite Hb, He. cbn [bind]. eauto.
Qed.

Theorem get_msg_defined : forall (g : graph T) old,
  (exists r, graph_get_msg g old = Ok r) <-> Forall (valid_constraint (length (gr_scans g))) (gr_constraints g).
Proof.
  intros g old. unfold graph_get_msg. generalize (old ++ map node_marker (gr_scans g)) as acc. generalize 0%Z as id.
  induction (gr_constraints g) as [|c cs IH]; intros id acc; cbn [foldM].
  - cbn. split; [constructor|eauto].
  - cbn [fst snd]. destruct (edge_marker (gr_scans g) id c) as [m|f] eqn:E; cbn [bind].
    + split; intro H.
      * constructor; [apply (edge_marker_defined (gr_scans g) id); eauto|]. apply (IH _ _) in H. exact H.
      * inversion H; subst. apply IH. assumption.
    + split; intro H; [destruct H; discriminate|]. inversion H as [|? ? H1 H2]; subst.
      apply (edge_marker_defined (gr_scans g) id) in H1. destruct H1 as (m & H1). congruence.
Qed.
End G.

(** * C34 *)
Local Open Scope R_scope.

Theorem find_nearest_exact : forall search (g : graph R) s dist limit r,
  radius_contract search -> find_nearest search g s dist limit = Ok r ->
  NoDup r /\
  (forall i, In i r <-> below_limit (length (gr_scans g)) limit i /\
     exists sc, nth_error (gr_scans g) i = Some sc /\
       sq_dist (scan_position (gr_use_bary g) sc) (scan_position (gr_use_bary g) s) < dist) /\
  StronglySorted (fun i j => forall a b, nth_error (gr_scans g) i = Some a -> nth_error (gr_scans g) j = Some b ->
     sq_dist (scan_position (gr_use_bary g) a) (scan_position (gr_use_bary g) s) <=
     sq_dist (scan_position (gr_use_bary g) b) (scan_position (gr_use_bary g) s)) r.
Proof.
  intros search g s dist limit r C H. rewrite find_nearest_defined in H.
  destruct (Z.ltb_spec (Z.of_nat (length (gr_scans g))) limit) as [L|L]; [discriminate|].
  set (n := limit_of g limit) in *. set (pts := map _ _) in H. set (q := scan_position (gr_use_bary g) s) in *.
  injection H as <-. destruct (C pts q dist) as (C1 & C2 & C3).
  assert (LN : (n <= length (gr_scans g))%nat /\ (forall i, (i < n)%nat <-> below_limit (length (gr_scans g)) limit i)).
  { unfold n, limit_of, below_limit. destruct (Z.ltb_spec 0 limit); split; try lia; intro i; split; lia. }
  destruct LN as (LN1 & LN2).
  assert (NTH : forall i p, nth_error pts i = Some p <->
     below_limit (length (gr_scans g)) limit i /\ exists sc, nth_error (gr_scans g) i = Some sc /\ p = scan_position (gr_use_bary g) sc).
  { intros i p. unfold pts. rewrite nth_error_map. rewrite <- LN2.
    destruct (Nat.lt_ge_cases i n) as [I|I].
    - assert (F : nth_error (firstn n (gr_scans g)) i = nth_error (gr_scans g) i).
      { rewrite <- (firstn_skipn n (gr_scans g)) at 2. rewrite nth_error_app1; [reflexivity|].
        rewrite firstn_length. lia. }
      rewrite F. destruct (nth_error (gr_scans g) i) as [sc|]; cbn.
      + split; [intro E; injection E as <-; split; [exact I|eauto]|].
        intros (_ & sc' & E & ->). injection E as <-. reflexivity.
      + split; [discriminate|]. intros (_ & sc & E & _). discriminate.
    - assert (F : nth_error (firstn n (gr_scans g)) i = None).
      { apply nth_error_None. rewrite firstn_length. lia. }
      rewrite F. cbn. split; [discriminate|]. intros (E & _). lia. }
  split; [exact C1|]. split.
  - intro i. rewrite C2. split.
    + intros (p & P & D). apply NTH in P. destruct P as (B & sc & P & ->). eauto.
    + intros (B & sc & P & D). eexists. split; [apply NTH; split; [exact B|]; eauto|exact D].
  - assert (IN : forall i, In i (search pts q dist) -> (i < n)%nat).
    { intros i I. apply C2 in I. destruct I as (p & P & _). apply NTH in P. apply LN2, P. }
    revert C3 IN. generalize (search pts q dist) as l. induction l as [|x l IH]; intros C3 IN; [constructor|].
    inversion C3 as [|? ? S1 S2]; subst. constructor.
    + apply IH; [exact S1|]. intros i I. apply IN. right. exact I.
    + rewrite Forall_forall in *. intros y Hy a b Ha Hb. apply (S2 y Hy).
      * apply NTH. split; [apply LN2, IN; left; reflexivity|eauto].
      * apply NTH. split; [apply LN2, IN; right; exact Hy|eauto].
Qed.

Theorem find_nearest_squared : forall search (g : graph R) s d limit r,
  radius_contract search -> 0 <= d -> find_nearest search g s (d * d) limit = Ok r ->
  forall i, In i r <-> below_limit (length (gr_scans g)) limit i /\
     exists sc, nth_error (gr_scans g) i = Some sc /\
       distance (scan_position (gr_use_bary g) sc) (scan_position (gr_use_bary g) s) < d.
Proof.
  intros search g s d limit r C D H i.
  destruct (find_nearest_exact _ _ _ _ _ _ C H) as (_ & E & _). rewrite E.
  assert (X : forall a b, sq_dist a b < d * d <-> distance a b < d).
  { intros a b. unfold distance. assert (P : 0 <= sq_dist a b).
    { unfold sq_dist. pose proof (Rle_0_sqr (px a - px b)). pose proof (Rle_0_sqr (py a - py b)). unfold Rsqr in *. lra. }
    split; intro L.
    - rewrite <- (sqrt_square d D). apply sqrt_lt_1; [exact P|apply Rmult_le_pos; exact D|exact L].
    - rewrite <- (sqrt_sqrt _ P). pose proof (sqrt_pos (sq_dist a b)) as Q.
      apply Rmult_le_0_lt_compat; assumption. }
  split; intros (B & sc & S & L); (split; [exact B|]); exists sc; (split; [exact S|]); apply X; exact L.
Qed.

(** An oracle meeting the contract exists: insertion into a sorted list. *)
Fixpoint insert_by (f : nat -> R) (i : nat) (l : list nat) : list nat :=
  match l with
  | [] => [i]
  | j :: rest => if Rle_bool (f i) (f j) then i :: j :: rest else j :: insert_by f i rest
  end.
Definition search_exact (pts : list (point R)) (q : point R) (r : R) : list nat :=
  let f i := sq_dist (nth i pts (mkPoint 0 0)) q in
  fold_right (insert_by f) [] (filter (fun i => Rlt_bool (f i) r) (seq 0 (length pts))).

Lemma insert_by_perm : forall f i l, Permutation (insert_by f i l) (i :: l).
Proof.
  induction l as [|j l IH]; cbn; [reflexivity|]. destruct (Rle_bool (f i) (f j)); [reflexivity|].
  rewrite IH. apply perm_swap.
Qed.
Lemma insert_by_sorted : forall f i l, StronglySorted (fun a b => f a <= f b) l ->
  StronglySorted (fun a b => f a <= f b) (insert_by f i l).
Proof.
  induction l as [|j l IH]; intro H; cbn; [repeat constructor|].
  destruct (Rle_bool_spec (f i) (f j)) as [L|L].
  - constructor; [exact H|]. inversion H as [|? ? S1 S2]; subst. constructor; [exact L|].
    eapply Forall_impl; [|exact S2]. cbn. intros; lra.
  - inversion H as [|? ? S1 S2]; subst. constructor; [apply IH, S1|].
    rewrite Forall_forall in *. intros y Hy.
    apply (Permutation_in _ (insert_by_perm f i l)) in Hy. destruct Hy as [<-|Hy]; [lra|apply S2, Hy].
Qed.
Lemma sort_perm : forall f l, Permutation (fold_right (insert_by f) [] l) l.
Proof. induction l as [|i l IH]; cbn; [reflexivity|]. rewrite insert_by_perm. constructor. exact IH. Qed.
Lemma sort_sorted : forall f l, StronglySorted (fun a b => f a <= f b) (fold_right (insert_by f) [] l).
Proof. induction l as [|i l IH]; cbn; [constructor|]. apply insert_by_sorted, IH. Qed.

Lemma search_exact_contract : radius_contract search_exact.
Proof.
  intros pts q r. unfold search_exact. set (f := fun i => sq_dist (nth i pts (mkPoint 0 0)) q).
  set (l := filter _ _). split; [|split].
  - eapply Permutation_NoDup; [apply Permutation_sym, sort_perm|]. apply NoDup_filter, seq_NoDup.
  - intro i. split.
    + intro H. apply (Permutation_in _ (sort_perm f l)) in H. apply filter_In in H. destruct H as (H1 & H2).
      apply in_seq in H1. exists (nth i pts (mkPoint 0 0)). split; [apply nth_error_nth'; lia|].
      change (Rlt_bool (f i) r = true) in H2. destruct (Rlt_bool_spec (f i) r) as [L|L]; [exact L|discriminate H2].
    + intros (p & P & D). apply (Permutation_in _ (Permutation_sym (sort_perm f l))). apply filter_In.
      assert (i < length pts)%nat by (apply nth_error_Some; congruence).
      split; [apply in_seq; lia|]. unfold f. rewrite (nth_error_nth _ _ _ P). apply Rlt_bool_true, D.
  - pose proof (sort_sorted f l) as S. induction S as [|x k S IH F]; constructor; [exact IH|].
    eapply Forall_impl; [|exact F]. cbn. intros y H p p' P P'.
    unfold f in H. rewrite (nth_error_nth _ _ _ P), (nth_error_nth _ _ _ P') in H. exact H.
Qed.

(** Witness: a scan two metres away is not found within three metres. *)
Definition far_graph : graph R :=
  mkGraph false [mkScan 0 true (mkPose 2 0 0) pose0 []] [].
Definition far_query : scan R := mkScan 1 true (mkPose 0 0 0) pose0 [].

Lemma far_distance : distance (scan_position false (mkScan 0 true (mkPose 2 0 0) pose0 [])) (scan_position false far_query) = 2.
Proof.
  unfold distance, sq_dist, scan_position, far_query. cbn.
  replace ((2 - 0) * (2 - 0) + (0 - 0) * (0 - 0)) with (2 * 2) by ring. apply sqrt_square. lra.
Qed.

Lemma far_made : Forall made (gr_scans far_graph).
Proof. constructor; [|constructor]. exists 0%Z, [SSetPose (mkPose 2 0 0)]. reflexivity. Qed.
Lemma query_made : made far_query.
Proof. exists 1%Z, [SSetPose (mkPose 0 0 0)]. reflexivity. Qed.

(** The position nanoflann is given is where the scan is. *)
Lemma position_made : forall ub s, made s -> scan_position ub s = seen_at ub s.
Proof.
  intros ub s (id & ops & ->). unfold scan_position, seen_at. destruct ub; [|reflexivity].
  destruct (barycenter_spec id ops) as (B0 & B1). rewrite scan_run_pts, scan_run_pose.
  destruct (last_points ops []) as [|p l].
  - rewrite B0; reflexivity.
  - destruct B1 as (B1 & _); [discriminate|]. exact B1.
Qed.

Lemma sq_dist_nonneg : forall a b, 0 <= sq_dist a b.
Proof.
  intros a b. unfold sq_dist. pose proof (Rle_0_sqr (px a - px b)). pose proof (Rle_0_sqr (py a - py b)).
  unfold Rsqr in *. lra.
Qed.

Section Made.
Variables (search : list (point R) -> point R -> R -> list nat) (g : graph R) (s : scan R).
Hypothesis (C : radius_contract search) (Mg : Forall made (gr_scans g)) (Ms : made s).

Lemma apart_sq : forall i sc, nth_error (gr_scans g) i = Some sc ->
  sq_dist (scan_position (gr_use_bary g) sc) (scan_position (gr_use_bary g) s) = apart g s i * apart g s i.
Proof.
  intros i sc E. unfold apart. rewrite E.
  assert (M : made sc) by (rewrite Forall_forall in Mg; apply Mg; eapply nth_error_In; exact E).
  rewrite (position_made _ sc M), (position_made _ s Ms). unfold distance.
  rewrite sqrt_sqrt by apply sq_dist_nonneg. reflexivity.
Qed.
Lemma apart_pos : forall i, 0 <= apart g s i.
Proof. intro i. unfold apart. destruct (nth_error _ _); [apply sqrt_pos|lra]. Qed.

Lemma find_nearest_made : forall dist limit r, find_nearest search g s dist limit = Ok r ->
  NoDup r /\
  (forall i, In i r <-> below_limit (length (gr_scans g)) limit i /\ apart g s i * apart g s i < dist) /\
  StronglySorted (fun i j => apart g s i <= apart g s j) r.
Proof.
  intros dist limit r H. destruct (find_nearest_exact _ _ _ _ _ _ C H) as (N & E & S).
  split; [exact N|].
  assert (Nth : forall i, below_limit (length (gr_scans g)) limit i -> exists sc, nth_error (gr_scans g) i = Some sc).
  { intros i (B & _). apply nth_error_Some in B. destruct (nth_error (gr_scans g) i) as [sc|]; [eauto|congruence]. }
  split.
  - intro i. rewrite E. split.
    + intros (B & sc & P & L). rewrite (apart_sq _ _ P) in L. split; assumption.
    + intros (B & L). destruct (Nth i B) as (sc & P). split; [exact B|]. exists sc. rewrite (apart_sq _ _ P). split; assumption.
  - assert (In_ : forall i, In i r -> exists sc, nth_error (gr_scans g) i = Some sc).
    { intros i I. apply E in I. apply Nth, I. }
    clear E N H. induction S as [|x l S IH F]; constructor.
    + apply IH. intros i I. apply In_. right. exact I.
    + rewrite Forall_forall in F. rewrite Forall_forall. intros y Y. destruct (In_ x (or_introl eq_refl)) as (a & Pa).
      destruct (In_ y (or_intror Y)) as (b & Pb). specialize (F y Y a b Pa Pb).
      rewrite (apart_sq _ _ Pa), (apart_sq _ _ Pb) in F.
      apply Rsqr_incr_0_var; [exact F|apply apart_pos].
Qed.

Lemma find_nearest_made_squared : forall d limit r, 0 <= d -> find_nearest search g s (d * d) limit = Ok r ->
  forall i, In i r <-> below_limit (length (gr_scans g)) limit i /\ apart g s i < d.
Proof.
  intros d limit r D H i. destruct (find_nearest_made _ _ _ H) as (_ & E & _). rewrite E.
  pose proof (apart_pos i) as P.
  split; intros (B & L); (split; [exact B|]).
  - apply Rsqr_incrst_0; [exact L|exact P|exact D].
  - apply Rmult_le_0_lt_compat; assumption.
Qed.
End Made.

Theorem find_nearest_made_refuted :
  ~ (forall search g s dist limit r, radius_contract search -> Forall made (gr_scans g) -> made s ->
      find_nearest search g s dist limit = Ok r ->
      forall i, In i r <-> below_limit (length (gr_scans g)) limit i /\ apart g s i < dist).
Proof.
  intro H. specialize (H search_exact far_graph far_query 3 (-1)%Z _ search_exact_contract far_made query_made eq_refl 0%nat).
  pose proof (find_nearest_made search_exact far_graph far_query search_exact_contract far_made query_made 3 (-1)%Z _ eq_refl)
    as (_ & E & _).
  specialize (E 0%nat). rewrite H in E. clear H.
  assert (D : apart far_graph far_query 0 = 2).
  { exact far_distance. }
  rewrite D in E. assert (B : below_limit (length (gr_scans far_graph)) (-1) 0) by (split; [cbn; lia|intro; lia]).
  destruct E as (E & _). assert (X : 2 * 2 < 3) by (apply E; split; [exact B|lra]). lra.
Qed.
